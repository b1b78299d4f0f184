(** Properties of the dividing planes of all atoms, elf_radii.py lines 73-416. *)
From Coq Require Import QArith Lqa Sorted.
From Verif Require Import Base WeightModel InterpProofs RootsModel RootsProofs LabelsProofs UnionModel ChargeModel CoordModel CoordProofs CoordMerge CoordProps NearModel RefineModel PlaneModel PlaneWrap PlaneProps EnvModel EnvProps RadModel RadSpec RadProofs RadProps BondModel BondProps VorModel VorProofs VorTop.
Local Open Scope Z_scope.

(** C171: the neighbours found are sorted and those at no distance dropped; *)
Theorem C171_sorted argsort l : sorts argsort ->
  (forall x, In x (neigh_info argsort l) <-> In x l /\ ~ (n_dist x == 0)%Q) /\
  StronglySorted (fun x y => (n_dist x <= n_dist y)%Q) (neigh_info argsort l).
Proof.
  intros S. split; [intro x; now apply neigh_info_in|]. unfold neigh_info. assert (F : forall (P : nn -> bool) m, StronglySorted (fun x y => (n_dist x <= n_dist y)%Q) m -> StronglySorted (fun x y => (n_dist x <= n_dist y)%Q) (filter P m)).
  { intros P m. induction 1 as [|x m S1 IH F1]; cbn; [constructor|]. destruct (P x); [|exact IH]. constructor; [exact IH|]. rewrite Forall_forall in *. intros y Y. apply filter_In in Y as [Y _]. auto. }
  apply F. clear F. destruct (S (map n_dist l)) as [_ S2]. induction (argsort (map n_dist l)) as [|i t IH]; cbn [map] in *; [constructor|]. inversion S2 as [|? ? S3 F1]; subst. constructor; [now apply IH|]. rewrite Forall_forall in *. intros y Y. apply in_map_iff in Y as (j & <- & J).
  specialize (F1 _ (in_map (fun t => nth t (map n_dist l) 0%Q) _ _ J)). change 0%Q with (n_dist nn0) in F1. now rewrite !map_nth in F1.
Qed.
Print Assumptions C171_sorted.

(** the atoms considered around a site are those of the wider list that are not the site itself and lie well below every plane
    drawn at one and a half times the way to a neighbour found; the wider list reaches three times as far as the farthest of them. *)
Definition nearby (root : Q -> Q) (fracs : list vec) (nlist : nat -> Q -> list nn) (s : nat) (found : list nn) (y : nn) : Prop :=
  let first z := In z found /\ ~ (n_dist z == 0)%Q in
  exists reach, (exists z, first z /\ (reach == 3 * n_dist z)%Q) /\ (forall z, first z -> (3 * n_dist z <= reach)%Q) /\
    In y (nlist s reach) /\ (tiny <= n_dist y)%Q /\
    forall z, first z -> let v := vsub (position fracs z) (site_coord fracs s) in
      (vdot v (vsub (position fracs y) (site_coord fracs s)) <= (3 # 2) * norm2 v - tiny * root (norm2 v))%Q.
Definition nlist_ok (nlist : nat -> Q -> list nn) : Prop := forall s r r' y, (r == r')%Q -> In y (nlist s r) -> In y (nlist s r').
Lemma filter_seq_sorted (P : nat -> bool) n : forall a, StronglySorted lt (filter P (seq a n)).
Proof.
  induction n as [|n IH]; intros a; cbn [seq filter]; [constructor|]. specialize (IH (S a)). destruct (P a); [|exact IH]. constructor; [exact IH|]. apply Forall_forall. intros z Z1. apply filter_In in Z1 as [Z1 _]. apply in_seq in Z1. lia.
Qed.
Section Plan.
Variables (root : Q -> Q) (argsort : list Q -> list nat) (fracs : list vec) (equiv : list nat) (found : nat -> list nn) (nlist : nat -> Q -> list nn).
Hypotheses (SO : sorts argsort) (PR : pos_root root) (NO : nlist_ok nlist).
Hypothesis NB : forall s, In s equiv -> neighbours_ok root fracs nlist s (found s).
Lemma expand_nearby s l y : In s equiv -> expand root fracs nlist s (neigh_info argsort (found s)) = Done l -> (In y l <-> nearby root fracs nlist s (found s) y).
Proof.
  intros IS E. destruct (expand_spec root fracs nlist s (neigh_info argsort (found s)) l PR) with (2 := E) as (reach & R1 & R2 & R3).
  { intros z Z1. apply (neigh_info_in argsort _ _ SO) in Z1 as [Z1 Z2]. now apply (proj2 (NB s IS) z). }
  assert (NI := fun x => neigh_info_in argsort (found s) x SO). destruct R1 as (z0 & Z1 & Z2). split.
  - intros H. apply R3 in H as (H1 & H2 & H3). exists reach. split; [exists z0; split; [now apply NI|exact Z2]|]. split; [intros z Z3; apply R2, NI, Z3|]. split; [exact H1|]. split; [exact H2|]. intros z Z3. apply H3, NI, Z3.
  - intros (r & (z1 & Z3 & Z4) & Z5 & H1 & H2 & H3). apply R3. assert (E2 : (r == reach)%Q). { specialize (R2 z1 (proj2 (NI z1) Z3)). specialize (Z5 z0 (proj1 (NI z0) Z1)). lra. }
    split; [exact (NO s r reach y E2 H1)|]. split; [exact H2|]. intros z Z6. apply H3, NI, Z6.
Qed.
Lemma considered_groups bs : considered root argsort fracs found nlist (unique_atoms equiv) = Done bs ->
  exists G, map fst G = unique_atoms equiv /\ bs = cat G /\ full G /\ forall s l, In (s, l) G -> In s equiv /\ expand root fracs nlist s (neigh_info argsort (found s)) = Done l.
Proof.
  intros E. destruct (considered_spec root argsort fracs found nlist _ _ E) as (G & G1 & G2 & G3). exists G. split; [exact G1|]. split; [exact G2|].
  assert (IG : forall s l, In (s, l) G -> In s equiv) by (intros s l H; apply unique_in; rewrite <- G1; apply in_map_iff; now exists (s, l)).
  split; [|intros s l H; split; [exact (IG s l H)|now apply G3]]. split; [rewrite G1; apply unique_nodup|]. intros s l H ->. specialize (G3 s [] H).
  destruct (expand_some root argsort fracs nlist s (found s) SO PR (NB s (IG s [] H))) as (l & E1 & z & Z1 & _). rewrite G3 in E1. injection E1 as <-. contradiction.
Qed.
Theorem C171_considered bs : considered root argsort fracs found nlist (unique_atoms equiv) = Done bs ->
  (forall s y, In (s, y) bs <-> In s equiv /\ nearby root fracs nlist s (found s) y) /\
  (forall s, In s equiv -> exists z, In (s, z) bs /\ In z (found s) /\ forall y, In y (found s) -> ~ (n_dist y == 0)%Q -> (norm2 (away fracs s z) <= norm2 (away fracs s y))%Q).
Proof.
  intros E. destruct (considered_groups bs E) as (G & G1 & -> & F & G3). split.
  - intros s y. rewrite in_cat. split.
    + intros (l & H1 & H2). destruct (G3 s l H1) as [I1 E1]. split; [exact I1|]. now apply (expand_nearby s l y I1 E1).
    + intros (H1 & H2). assert (H : In s (map fst G)) by (rewrite G1; now apply unique_in). apply in_map_iff in H as ([s' l] & E1 & H). cbn in E1. subst s'. exists l. split; [exact H|]. destruct (G3 s l H) as [I1 E1]. now apply (expand_nearby s l y I1 E1).
  - intros s H1. assert (H : In s (map fst G)) by (rewrite G1; now apply unique_in). apply in_map_iff in H as ([s' l] & E1 & H). cbn in E1. subst s'. destruct (G3 s l H) as [I1 E1].
    destruct (expand_some root argsort fracs nlist s (found s) SO PR (NB s I1)) as (l' & E2 & z & Z1 & Z2 & Z3). rewrite E1 in E2. injection E2 as <-. exists z. split; [apply in_cat; eauto|]. auto.
Qed.
(** Nothing is raised while the atoms are collected. *)
Theorem C171_done : exists bs, considered root argsort fracs found nlist (unique_atoms equiv) = Done bs.
Proof. apply considered_done. intros s H. rewrite unique_in in H. destruct (expand_some root argsort fracs nlist s (found s) SO PR (NB s H)) as (l & E & _). eauto. Qed.

(** C173: a bond is kept exactly if three corners of the cell of its site, cut out by the planes of all bonds of that site, lie on
    the plane of the first bond of the site in the same class. *)
Variables (corners : list eqn -> vec -> option (list vec)).
Theorem C173_flags bs fr inverse fl : considered root argsort fracs found nlist (unique_atoms equiv) = Done bs -> equiv <> [] ->
  length fr = length bs -> length inverse = length bs -> flags root fracs corners bs fr inverse (site_ranges (map fst bs)) (unique_atoms equiv) 0 = Done fl ->
  length fl = length bs /\
  forall i s y, nth_error bs i = Some (s, y) -> 
    let mine := filter (fun j => match nth_error bs j with Some b => Nat.eqb (fst b) s | None => false end) (seq 0 (length bs)) in
    let plane j := plane_equation root (site_coord fracs s) (position fracs (snd (nth j bs (0%nat, nn0)))) (nth j fr 0%Q) in
    exists vs j, corners (map plane mine) (site_coord fracs s) = Some vs /\
      In j mine /\ nth_error inverse j = nth_error inverse i /\ (forall k, In k mine -> nth_error inverse k = nth_error inverse i -> (j <= k)%nat) /\
      nth_error fl i = Some (Nat.leb 3 (length (filter (fun v => Qle_bool (qabs (plane_value (plane j) v)) tiny) vs))).
Proof.
  intros E NE LF LI EF. destruct (considered_groups bs E) as (G & G1 & G2 & F & G3). set (T := combine bs (combine fr inverse)).
  assert (LC : length (combine fr inverse) = length bs) by (rewrite combine_length, LF, LI; apply Nat.min_id).
  assert (T1 : map fst T = bs) by (unfold T; apply map_fst_combine; now rewrite LC).
  assert (T2 : map snd T = combine fr inverse) by (unfold T; apply map_snd_combine; now rewrite LC).
  assert (T3 : map (fun t : nat * nn * (Q * nat) => fst (snd t)) T = fr) by (rewrite <- (map_map snd fst), T2; apply map_fst_combine; congruence).
  assert (T4 : map (fun t : nat * nn * (Q * nat) => snd (snd t)) T = inverse) by (rewrite <- (map_map snd snd), T2; apply map_snd_combine; congruence).
  assert (GN : G <> []). { intros ->. destruct equiv as [|e t] eqn:Eq; [congruence|]. assert (X : In e (unique_atoms equiv)) by (rewrite Eq; apply unique_in; now left). rewrite Eq, <- G1 in X. destruct X. }
  assert (T5 : map fst T = cat G) by (rewrite T1; exact G2).
  pose proof (flags_all root fracs corners G T F GN T5) as FA. rewrite T1, T3, T4, G1 in FA. rewrite FA in EF. rewrite <- G1 in EF.
  destruct (gather_groups root fracs corners T G T fl F T5 ltac:(reflexivity) EF) as (L & SP). assert (LT : length T = length bs) by (unfold T; rewrite combine_length, LC; apply Nat.min_id). split; [now rewrite L|].
  intros i s y Ei mine plane. assert (NT : forall j, (j < length bs)%nat -> nth_error T j = Some (nth j bs (0%nat, nn0), (nth j fr 0%Q, nth j inverse 0%nat))).
  { intros j J. unfold T. apply nth_combine. split; [now apply nth_error_nth'|]. apply nth_combine. split; apply nth_error_nth'; lia. }
  assert (Li : (i < length bs)%nat) by (apply nth_error_Some; congruence). pose proof (NT i Li) as NTi. rewrite (nth_error_nth _ _ _ Ei) in NTi. destruct (SP i _ NTi) as (vs & t0 & C1 & C2 & C3). cbn [fst snd] in C1, C2, C3.
  assert (OS : of_site s T = map (fun j => nth j T ((0%nat, nn0), (0%Q, 0%nat))) mine).
  { unfold of_site, mine. rewrite <- LT. assert (IDT : T = map (fun j => nth j T ((0%nat, nn0), (0%Q, 0%nat))) (seq 0 (length T))) by (symmetry; apply nth_seq_id).
    rewrite IDT at 1. rewrite CoordProofs.filter_map. f_equal. apply filter_ext_in. intros j J. apply in_seq in J. rewrite (nth_error_nth' bs (0%nat, nn0)) by lia. rewrite (nth_error_nth _ _ _ (NT j ltac:(lia))). reflexivity. }
  assert (IM : forall j, In j mine -> (j < length bs)%nat /\ fst (nth j bs (0%nat, nn0)) = s).
  { intros j J. apply filter_In in J as [J1 J2]. apply in_seq in J1. rewrite (nth_error_nth' bs (0%nat, nn0)) in J2 by lia. apply Nat.eqb_eq in J2. split; [lia|exact J2]. }
  assert (MP : map (triple_plane root fracs) (of_site s T) = map plane mine).
  { rewrite OS, map_map. apply map_ext_in. intros j J. destruct (IM j J) as [J1 J2]. rewrite (nth_error_nth _ _ _ (NT j J1)). unfold triple_plane, plane. cbn [fst snd]. now rewrite J2. }
  rewrite MP in C1. destruct C2 as (k & K1 & K2 & K3). rewrite OS in K1, K3. rewrite nth_error_map in K1. destruct (nth_error mine k) as [j|] eqn:EK; [|discriminate]. cbn [option_map] in K1. injection K1 as K1.
  assert (J : In j mine) by (now apply nth_error_In in EK). destruct (IM j J) as [J1 J2]. rewrite (nth_error_nth _ _ _ (NT j J1)) in K1. subst t0. cbn [fst snd] in K2. exists vs, j. split; [exact C1|]. split; [exact J|].
  assert (NI : forall a, (a < length bs)%nat -> nth_error inverse a = Some (nth a inverse 0%nat)) by (intros a A; apply nth_error_nth'; lia).
  split; [rewrite !NI by lia; now f_equal|]. split.
  - intros k' K' EQ. destruct (IM k' K') as [L1 L2]. rewrite !NI in EQ by lia. injection EQ as EQ. apply In_nth_error in K' as (m & M). destruct (Nat.lt_ge_cases m k) as [LTm|GE].
    + exfalso. apply (K3 m (nth k' T (0%nat, nn0, (0%Q, 0%nat))) LTm); [rewrite nth_error_map, M; reflexivity|]. rewrite (nth_error_nth _ _ _ (NT k' L1)). cbn [fst snd]. congruence.
    + assert (SS : StronglySorted lt mine).
      { apply filter_seq_sorted. }
      clear -SS EK M GE. revert k m EK M GE. induction SS as [|a l S1 IH F1]; intros k m EK M GE; [destruct k; discriminate|]. rewrite Forall_forall in F1. destruct k as [|k], m as [|m]; cbn in EK, M; [injection EK as ->; injection M as ->; lia| |lia|apply (IH k m); auto; lia].
      injection EK as ->. apply nth_error_In in M. specialize (F1 _ M). lia.
  - rewrite C3. f_equal. unfold three_on. unfold triple_plane. cbn [fst snd]. rewrite J2. reflexivity.
Qed.

(** C172: the rows reported. *)
Variables (ops : list op) (matrix : mat) (order1 order2 : list nat) (uniq : list key -> list nat * list nat).
Variables (interp : vec -> Q) (nearest : vec -> Z) (coords : list vec) (covalent : list bool) (refinements : nat).
Hypothesis UQ : forall keys, unique_ok keys (fst (uniq keys)) (snd (uniq keys)).
Hypotheses (PI : of_place Qeq interp) (PN : of_place eq nearest) (NC : coords <> []) (RN : forall p, -1 <= nearest p < Z.of_nat (length coords)).
(** No atom is nearer than about a tenth of an Angstrom or farther than 50000. *)
Hypothesis DI : forall s r y, In y (nlist s r) -> (tiny <= n_dist y)%Q -> 3 <= num_points (n_dist y) 20 < 1000000.
Hypothesis EN : equiv <> [].
Definition keys bs := map rep_key (canonical fracs equiv ops order1 order2 bs).
Lemma canonical_length bs : length (canonical fracs equiv ops order1 order2 bs) = length bs.
Proof. unfold canonical, get_canonical_bonds. rewrite par_loop_length, repeat_length. apply map_length. Qed.
Lemma rad_bonds_nth bs i x : nth_error (rad_bonds fracs equiv ops order1 order2 bs) i = Some x <->
  exists s y r, nth_error bs i = Some (s, y) /\ nth_error (canonical fracs equiv ops order1 order2 bs) i = Some r /\ x = Bond s (n_idx y) (position fracs y) (n_dist y) (r_inv r =? 1).
Proof.
  unfold rad_bonds. rewrite nth_error_map. destruct (nth_error (combine bs (canonical fracs equiv ops order1 order2 bs)) i) as [[[s y] r]|] eqn:E.
  - apply nth_combine in E as [E1 E2]. cbn. split; [intros [= <-]; exists s, y, r; auto|]. intros (s' & y' & r' & F1 & F2 & ->). rewrite E1 in F1. rewrite E2 in F2. injection F1 as <- <-. injection F2 as <-. reflexivity.
  - cbn. split; [discriminate|]. intros (s' & y' & r' & F1 & F2 & _). exfalso. enough (X : nth_error (combine bs (canonical fracs equiv ops order1 order2 bs)) i = Some ((s', y'), r')) by congruence. apply nth_combine. auto.
Qed.
Lemma rad_bonds_length bs : length (rad_bonds fracs equiv ops order1 order2 bs) = length bs.
Proof. unfold rad_bonds. rewrite map_length, combine_length, canonical_length. apply Nat.min_id. Qed.
Lemma considered_some bs : considered root argsort fracs found nlist (unique_atoms equiv) = Done bs -> bs <> [].
Proof. intros E ->. destruct (C171_considered [] E) as [_ H]. destruct equiv as [|e t]; [congruence|]. destruct (H e (or_introl eq_refl)) as (z & [] & _). Qed.
Notation the_fractions bs := (fractions fracs equiv ops order1 order2 interp nearest coords covalent refinements bs (fst (uniq (keys bs))) (snd (uniq (keys bs)))).
Notation the_types bs := (bond_types fracs equiv ops order1 order2 interp nearest coords covalent refinements bs (fst (uniq (keys bs))) (snd (uniq (keys bs)))).
Notation the_flags bs fr := (flags root fracs corners bs fr (snd (uniq (keys bs))) (site_ranges (map fst bs)) (unique_atoms equiv) 0).
Lemma fractions_ok bs : considered root argsort fracs found nlist (unique_atoms equiv) = Done bs ->
  exists fr, the_fractions bs = Done fr /\ length fr = length bs /\ (forall f, In f fr -> (0 < f < 1)%Q) /\
    (forall i j r r' f g, nth_error (canonical fracs equiv ops order1 order2 bs) i = Some r -> nth_error (canonical fracs equiv ops order1 order2 bs) j = Some r' -> rep_key r = rep_key r' ->
       nth_error fr i = Some f -> nth_error fr j = Some g -> if Bool.eqb (r_inv r =? 1) (r_inv r' =? 1) then (f == g)%Q else (f + g == 1)%Q).
Proof.
  intros E. pose proof (considered_some bs E) as NE. destruct (C171_considered bs E) as [IB _].
  destruct (C41_classes interp nearest coords covalent refinements equiv (rad_bonds fracs equiv ops order1 order2 bs) (keys bs) (fst (uniq (keys bs))) (snd (uniq (keys bs))) PI PN NC RN) as (fr & E1 & L & F1 & F2 & _).
  - intros X. apply NE. apply length_zero_iff_nil. rewrite <- rad_bonds_length, X. reflexivity.
  - intros x H. apply In_nth_error in H as (i & H). apply rad_bonds_nth in H as (s & y & r & H1 & _ & ->). cbn. apply nth_error_In in H1. apply IB in H1 as (_ & reach & _ & _ & H2 & H3 & _). exact (DI s reach y H2 H3).
  - unfold keys. rewrite map_length, canonical_length. now rewrite rad_bonds_length.
  - apply UQ.
  - exists fr. split; [exact E1|]. split; [rewrite L; apply rad_bonds_length|]. split; [exact F1|]. intros i j r r' f g R1 R2 K Fi Fj.
    assert (B : forall a q, nth_error (canonical fracs equiv ops order1 order2 bs) a = Some q -> exists s y, nth_error (rad_bonds fracs equiv ops order1 order2 bs) a = Some (Bond s (n_idx y) (position fracs y) (n_dist y) (r_inv q =? 1))).
    { intros a q H. assert (A : (a < length bs)%nat) by (rewrite <- canonical_length; apply nth_error_Some; congruence). destruct (nth_error bs a) as [[s y]|] eqn:EB; [|apply nth_error_None in EB; lia]. exists s, y. apply rad_bonds_nth. eauto 6. }
    destruct (B i r R1) as (s1 & y1 & B1), (B j r' R2) as (s2 & y2 & B2).
    pose proof (map_nth_error rep_key _ _ R1) as K1. pose proof (map_nth_error rep_key _ _ R2) as K2. rewrite <- K in K2. exact (F2 i j _ _ (rep_key r) f g K1 K2 B1 B2 Fi Fj).
Qed.
Lemma types_length bs ty : the_types bs = Done ty -> length ty = length bs.
Proof.
  unfold bond_types. destruct (get_all_atom_elf_radii _ _ _ _ _ _ _) as [res| |]; cbn [obind]; try discriminate. intros [= <-]. rewrite map_length. destruct (UQ (keys bs)) as (L & _). rewrite L. unfold keys. rewrite map_length. apply canonical_length.
Qed.
(** A bond has the type found for a bond with the same representative; bonds with the same representative have the same type. *)
Theorem C172_types bs ty : the_types bs = Done ty ->
  (forall i k, nth_error (keys bs) i = Some k -> exists r x, nth_error (keys bs) r = Some k /\ nth_error (rad_bonds fracs equiv ops order1 order2 bs) r = Some x /\
     nth_error ty i = Some (snd (bond_radius interp nearest coords covalent refinements equiv x))) /\
  (forall i j k, nth_error (keys bs) i = Some k -> nth_error (keys bs) j = Some k -> nth_error ty i = nth_error ty j).
Proof.
  destruct (UQ (keys bs)) as (L & SAME & REP & LT). unfold bond_types, get_all_atom_elf_radii. set (rep := fun j => nth j (rad_bonds fracs equiv ops order1 order2 bs) (Bond 0 0 vzero 0 false)).
  set (res := map _ (map rep _)). destruct res as [|r0 rs] eqn:ER; [discriminate|]. rewrite <- ER. destruct (forallb _ res); cbn [obind]; [|discriminate]. intros E. apply done_inj in E. subst ty.
  assert (INV : forall i k, nth_error (keys bs) i = Some k -> exists c, nth_error (snd (uniq (keys bs))) i = Some c).
  { intros i k K. destruct (nth_error (snd (uniq (keys bs))) i) as [c|] eqn:C; [now exists c|]. apply nth_error_None in C. assert (i < length (keys bs))%nat by (apply nth_error_Some; congruence). lia. }
  split.
  - intros i k K. destruct (INV i k K) as (c & C). destruct (REP i k c K C) as (r & R & KR). assert (LR : (r < length (rad_bonds fracs equiv ops order1 order2 bs))%nat).
    { rewrite rad_bonds_length, <- (canonical_length bs), <- (map_length rep_key). apply LT. now apply nth_error_In in R. }
    exists r, (rep r). split; [exact KR|]. split; [now apply nth_error_nth'|]. rewrite (map_nth_error _ _ _ C). f_equal. unfold res. rewrite map_map. rewrite (nth_error_nth _ _ _ (map_nth_error (fun x => bond_radius interp nearest coords covalent refinements equiv (rep x)) _ _ R)). reflexivity.
  - intros i j k K1 K2. destruct (INV i k K1) as (c & C), (INV j k K2) as (c' & C'). rewrite (map_nth_error _ _ _ C), (map_nth_error _ _ _ C'). replace c' with c; [reflexivity|]. now apply (SAME i j k k c c' K1 K2 C C').
Qed.
Definition the_row (s : nat) (y : nn) (f : Q) (t : bool) (o : op) : option row :=
  sym_row root fracs matrix (1 # 50) (mkBond s (n_idx y) (position fracs y) (n_dist y)) f (if t then 1 else 0)%Q o.
Theorem C172_result out :
  get_voronoi_radii root argsort fracs equiv ops matrix found nlist order1 order2 uniq corners interp nearest coords covalent refinements = Done out ->
  exists bs fr ty fl, considered root argsort fracs found nlist (unique_atoms equiv) = Done bs /\
    the_fractions bs = Done fr /\ the_types bs = Done ty /\ the_flags bs fr = Done fl /\
    length fr = length bs /\ length ty = length bs /\ length fl = length bs /\ (forall f, In f fr -> (0 < f < 1)%Q) /\
    StronglySorted row_lt out /\ StronglySorted Z.le (map g_site out) /\ (forall r, In r out -> g_site r <> -1) /\
    (forall r, In r out -> exists i s y f t o, nth_error bs i = Some (s, y) /\ nth_error fr i = Some f /\ nth_error ty i = Some t /\ nth_error fl i = Some true /\ In o ops /\ the_row s y f t o = Some r) /\
    (forall i s y f t o, nth_error bs i = Some (s, y) -> nth_error fr i = Some f -> nth_error ty i = Some t -> nth_error fl i = Some true -> In o ops ->
       exists r r', the_row s y f t o = Some r /\ In r' out /\ row_same r r').
Proof.
  unfold get_voronoi_radii. destruct (considered root argsort fracs found nlist (unique_atoms equiv)) as [bs| |] eqn:E; cbn [obind]; try discriminate. fold (keys bs).
  rewrite (surjective_pairing (uniq (keys bs))). destruct (fractions_ok bs E) as (fr & E1 & L1 & F1 & _). rewrite E1. cbn [obind].
  destruct (the_types bs) as [ty| |] eqn:E2; cbn [obind]; try discriminate. pose proof (types_length bs ty E2) as L2. destruct (the_flags bs fr) as [fl| |] eqn:E3; cbn [obind]; try discriminate.
  assert (L3 : length fl = length bs). { apply (C173_flags bs fr (snd (uniq (keys bs))) fl E EN L1); [|exact E3]. destruct (UQ (keys bs)) as (L & _). rewrite L. unfold keys. rewrite map_length. apply canonical_length. }
  unfold rows. set (kept := selected _ fl). set (input := map (fun '(b, (f, t)) => (as_bond fracs b, (f, if t : bool then 1%Q else 0%Q))) kept).
  destruct (all_rows (generate_symmetric_bonds root fracs matrix (1 # 50) input ops)) as [l| |] eqn:E4; cbn [obind]; try discriminate. destruct (existsb (fun r => g_site r =? -1) (unique_rows l)) eqn:E5; [discriminate|]. intros E6. apply done_inj in E6. subst out.
  apply all_rows_spec in E4. destruct (unique_rows_spec l) as (S1 & S2 & S3). exists bs, fr, ty, fl. do 8 (split; [first [reflexivity|assumption]|]). split; [exact S1|]. split.
  { clear -S1. induction S1 as [|r l' S IH F]; cbn; constructor; [exact IH|]. rewrite Forall_forall in *. intros z Z1. apply in_map_iff in Z1 as (q & <- & Q1). now apply row_lt_site, F. }
  split; [intros r R1 R2; enough (X : existsb (fun r => g_site r =? -1) (unique_rows l) = true) by congruence; apply existsb_exists; exists r; split; [exact R1|now apply Z.eqb_eq]|].
  assert (KI : forall s y f t, In ((s, y), (f, t)) kept <-> exists i, nth_error bs i = Some (s, y) /\ nth_error fr i = Some f /\ nth_error ty i = Some t /\ nth_error fl i = Some true).
  { intros s y f t. unfold kept. rewrite in_selected. split; intros (i & H).
    - destruct H as [H1 H2]. apply nth_combine in H1 as [H1 H3]. apply nth_combine in H3 as [H3 H4]. eauto.
    - destruct H as (H1 & H2 & H3 & H4). exists i. split; [|exact H4]. apply nth_combine. split; [exact H1|]. apply nth_combine. auto. }
  assert (GI : forall x, In x (generate_symmetric_bonds root fracs matrix (1 # 50) input ops) <-> exists s y f t o, In ((s, y), (f, t)) kept /\ In o ops /\ x = the_row s y f t o).
  { intros x. unfold generate_symmetric_bonds. rewrite in_flat_map. split.
    - intros ([b [f q]] & H1 & H2). apply in_map_iff in H1 as ([[s y] [f' t]] & E7 & H1). injection E7 as <- <- <-. apply in_map_iff in H2 as (o & <- & H2). exists s, y, f', t, o. auto.
    - intros (s & y & f & t & o & H1 & H2 & ->). exists (as_bond fracs (s, y), (f, if t then 1%Q else 0%Q)). split; [unfold input; apply in_map_iff; exists ((s, y), (f, t)); auto|]. apply in_map_iff. exists o. auto. }
  rewrite E4 in GI. split.
  - intros r R1. apply S2 in R1. destruct (proj1 (GI (Some r)) (in_map Some _ _ R1)) as (s & y & f & t & o & H1 & H2 & H3). apply KI in H1 as (i & H4 & H5 & H6 & H7). exists i, s, y, f, t, o. auto 10.
  - intros i s y f t o H4 H5 H6 H7 H2. assert (H1 : In ((s, y), (f, t)) kept) by (apply KI; eauto). assert (H : In (the_row s y f t o) (map Some l)) by (apply GI; exists s, y, f, t, o; auto). apply in_map_iff in H as (r & H & R1). destruct (S3 r R1) as (r' & R2 & R3). exists r, r'. auto.
Qed.

(** C174: a bond between equivalent atoms is divided in the middle. *)
Hypothesis PO : forall bs, considered root argsort fracs found nlist (unique_atoms equiv) = Done bs ->
  Permutation order1 (seq 0 (length (np_unique (map (fun b => Z.of_nat (fst b)) bs)))) /\ Permutation order2 (seq 0 (length bs)).
(** The operations that move site [s] to its representative. *)
Definition moves (s : nat) : list bool :=
  map (fun o => find_site_in_tol (map (chunk_of (1 # 50)) fracs) (vmap mod1 (apply_op o (site_coord fracs s))) (1 # 50) =? nth s (map Z.of_nat equiv) 0) ops.
Lemma canonical_nth bs i s y : considered root argsort fracs found nlist (unique_atoms equiv) = Done bs -> nth_error bs i = Some (s, y) ->
  nth_error (canonical fracs equiv ops order1 order2 bs) i = Some (get_canonical_bond s (n_idx y) (position fracs y) fracs (map Z.of_nat equiv) ops (moves s) (n_dist y) (1 # 50)).
Proof.
  intros E H. destruct (PO bs E) as [P1 P2]. destruct (C115_bonds (map (as_bond fracs) bs) fracs (map Z.of_nat equiv) ops (1 # 50) order1 order2 i (as_bond fracs (s, y))) as [_ X]; [now rewrite map_map|now rewrite map_length|now apply map_nth_error|]. exact X.
Qed.
Lemma nth_equiv i : nth i (map Z.of_nat equiv) 0 = Z.of_nat (nth i equiv 0%nat).
Proof. change 0 with (Z.of_nat 0). apply map_nth. Qed.
Theorem C174_half bs fr i s y f : considered root argsort fracs found nlist (unique_atoms equiv) = Done bs -> the_fractions bs = Done fr ->
  nth_error bs i = Some (s, y) -> nth_error fr i = Some f -> nth s equiv 0%nat = nth (n_idx y) equiv 0%nat -> (f == 1 # 2)%Q.
Proof.
  intros E EF Hi Fi ES. destruct (UQ (keys bs)) as (U1 & U2 & U3 & U4). set (indices := fst _) in *. set (inverse := snd _) in *.
  assert (LI : length inverse = length bs) by (rewrite U1; unfold keys; rewrite map_length; apply canonical_length). assert (Li : (i < length bs)%nat) by (apply nth_error_Some; congruence).
  destruct (nth_error inverse i) as [c|] eqn:Ec; [|apply nth_error_None in Ec; lia]. pose proof (canonical_nth bs i s y E Hi) as Ci. set (q := get_canonical_bond _ _ _ _ _ _ _ _ _) in Ci.
  destruct (U3 i (rep_key q) c (map_nth_error rep_key _ _ Ci) Ec) as (r & R1 & R2). unfold keys in R2. rewrite nth_error_map in R2. destruct (nth_error (canonical fracs equiv ops order1 order2 bs) r) as [q'|] eqn:Eq'; [|discriminate]. cbn in R2. injection R2 as R2 R3 R4 R5.
  assert (Lr : (r < length bs)%nat) by (rewrite <- canonical_length; apply nth_error_Some; congruence). destruct (nth_error bs r) as [[s' y']|] eqn:Er; [|apply nth_error_None in Er; lia]. pose proof (canonical_nth bs r s' y' E Er) as Cr. rewrite Eq' in Cr. injection Cr as Cr.
  destruct (C115_sites s (n_idx y) (position fracs y) fracs (map Z.of_nat equiv) ops (moves s) (n_dist y) (1 # 50)) as (_ & A1 & _). destruct (C115_sites s' (n_idx y') (position fracs y') fracs (map Z.of_nat equiv) ops (moves s') (n_dist y') (1 # 50)) as (_ & A2 & _). cbv zeta in A1, A2. fold q in A1. rewrite <- Cr in A2. rewrite !nth_equiv in A1, A2. rewrite R2, R3 in A2.
  assert (EQ : r_lo q = r_hi q). { destruct A1 as [[_ X]|[_ [X Y]]]; injection X as -> ->; congruence. }
  assert (ER : nth s' equiv 0%nat = nth (n_idx y') equiv 0%nat). { rewrite EQ in A2. destruct A2 as [[_ X]|[_ [X Y]]]; [|lia]. pose proof (f_equal fst X) as X1. pose proof (f_equal snd X) as X2. cbn in X1, X2. lia. }
  unfold fractions, spread_fractions in EF. destruct (get_all_atom_elf_radii interp nearest coords covalent refinements equiv _) as [res| |] eqn:EG; cbn [obind] in EF; try discriminate. apply done_inj in EF. subst fr.
  unfold get_all_atom_elf_radii in EG. set (reps := map _ indices) in EG. assert (RES : res = map (bond_radius interp nearest coords covalent refinements equiv) reps). { destruct (map (bond_radius interp nearest coords covalent refinements equiv) reps) as [|a t]; [discriminate|]. destruct (forallb _ (a :: t)); [|discriminate]. injection EG as <-. reflexivity. }
  rewrite nth_error_map in Fi. destruct (nth_error (combine (rad_bonds fracs equiv ops order1 order2 bs) inverse) i) as [[x c']|] eqn:EC; [|discriminate]. cbn in Fi. apply nth_combine in EC as [EC1 EC2]. rewrite Ec in EC2. injection EC2 as <-.
  assert (V : nth c (map (fun x : Q * Q * bool => let '(_, f0, _) := x in f0) res) 0%Q = (1 # 2)%Q).
  { apply nth_error_nth. rewrite RES, !map_map, nth_error_map. unfold reps. rewrite nth_error_map, R1. cbn [option_map]. assert (NB' : nth r (rad_bonds fracs equiv ops order1 order2 bs) (Bond 0 0 vzero 0 false) = Bond s' (n_idx y') (position fracs y') (n_dist y') (r_inv q' =? 1)) by (apply nth_error_nth, rad_bonds_nth; eauto 6).
    rewrite NB'. unfold bond_radius. cbn [RadModel.b_site RadModel.b_neigh]. rewrite ER, Nat.eqb_refl. reflexivity. }
  rewrite V in Fi. injection Fi as <-. destruct (b_reversed x); reflexivity.
Qed.
(** The two ends of a bond between inequivalent atoms get complementary fractions, provided that the image of the displacement that is
    smallest in every component is the same for both. *)
Definition least_image (s : nat) (y : nn) (c : chunk) : Prop :=
  image_of (site_coord fracs s) (position fracs y) (1 # 50) ops (moves s) c /\ forall c', image_of (site_coord fracs s) (position fracs y) (1 # 50) ops (moves s) c' -> le3 c c'.
Theorem C174_ends bs fr i j s y s' y' f g c : considered root argsort fracs found nlist (unique_atoms equiv) = Done bs -> the_fractions bs = Done fr ->
  nth_error bs i = Some (s, y) -> nth_error bs j = Some (s', y') -> nth_error fr i = Some f -> nth_error fr j = Some g ->
  nth (n_idx y) equiv 0%nat = nth s' equiv 0%nat -> nth (n_idx y') equiv 0%nat = nth s equiv 0%nat -> (n_dist y == n_dist y')%Q ->
  least_image s y c -> least_image s' y' c -> nth s equiv 0%nat <> nth s' equiv 0%nat -> (f + g == 1)%Q.
Proof.
  intros E EF Hi Hj Fi Fj E1 E2 ED [C1 C2] [D1 D2] NE. destruct (fractions_ok bs E) as (fr' & EF' & _ & _ & X). rewrite EF in EF'. apply done_inj in EF'. subst fr'.
  pose proof (canonical_nth bs i s y E Hi) as Ri. pose proof (canonical_nth bs j s' y' E Hj) as Rj. set (ri := get_canonical_bond s _ _ _ _ _ _ _ _) in *. set (rj := get_canonical_bond s' _ _ _ _ _ _ _ _) in *.
  assert (DI' : r_disp ri = c) by (apply C115_least; assumption). assert (DJ : r_disp rj = c) by (apply C115_least; assumption).
  assert (K : r_lo ri = r_lo rj /\ r_hi ri = r_hi rj /\ r_len ri = r_len rj /\ Bool.eqb (r_inv ri =? 1) (r_inv rj =? 1) = false).
  { unfold ri, rj, get_canonical_bond. rewrite !nth_equiv, E1, E2. assert (PL : py_round (n_dist y / (1 # 50)) = py_round (n_dist y' / (1 # 50))) by (apply InterpProofs.py_round_comp; now rewrite ED). rewrite PL. destruct (Z.leb_spec (Z.of_nat (nth s equiv 0%nat)) (Z.of_nat (nth s' equiv 0%nat))), (Z.leb_spec (Z.of_nat (nth s' equiv 0%nat)) (Z.of_nat (nth s equiv 0%nat))); try lia; cbn; auto. }
  destruct K as (K1 & K2 & K3 & K4). assert (K5 : rep_key ri = rep_key rj) by (unfold rep_key; congruence). specialize (X i j ri rj f g Ri Rj K5 Fi Fj). rewrite K4 in X. exact X.
Qed.

(** C175: nothing is raised if the operations map atoms to atoms, atoms are further apart than the tolerance, and the corners are found
    whenever the site lies strictly inside all planes. *)
Hypothesis CO : forall eqns p, eqns <> [] -> (forall e, In e eqns -> (plane_value e p < 0)%Q) -> corners eqns p <> None.
Hypothesis AW : forall s r y, In s equiv -> In y (nlist s r) -> (tiny <= n_dist y)%Q -> (n_idx y < length fracs)%nat /\ (0 < norm2 (away fracs s y))%Q.
Hypothesis SI : forall s, In s equiv -> (s < length fracs)%nat.
Hypothesis SY : forall o k J, In o ops -> (k < length fracs)%nat -> exists l I, (l < length fracs)%nat /\ veq (apply_op o (vshift (site_coord fracs k) J)) (vshift (site_coord fracs l) I).
Hypothesis AP : NoDup (map (chunk_of (1 # 50)) fracs).
Hypothesis IN : forall v, In v fracs -> inside v.
Lemma own_below s y f : (0 < f)%Q -> (0 < norm2 (away fracs s y))%Q -> (plane_value (plane_equation root (site_coord fracs s) (position fracs y) f) (site_coord fracs s) < 0)%Q.
Proof. clear PO.
  intros F N. unfold away in N. pose proof (plane_value_times root _ _ f (site_coord fracs s) N PR) as E. specialize (PR _ N). assert (Z0 : (vdot (vsub (position fracs y) (site_coord fracs s)) (vsub (site_coord fracs s) (site_coord fracs s)) == 0)%Q).
  { destruct (site_coord fracs s) as [[a b] c], (position fracs y) as [[d e] g]. cbn. ring. }
  rewrite Z0 in E. set (v := plane_value _ _) in *. set (r := root _) in *. set (q := norm2 _) in *. clearbody v r q. destruct (Qlt_le_dec v 0) as [L|L]; [exact L|]. exfalso. assert (0 <= v * r)%Q by (apply Qmult_le_0_compat; lra). assert (0 < f * q)%Q by (apply Qmult_lt_0_compat; lra). lra.
Qed.
Lemma gather_done U sites : (forall s, In s sites -> exists fl, flags_of root fracs corners U s = Done fl) -> exists fl, gather_flags root fracs corners U sites = Done fl.
Proof. clear PO.
  induction sites as [|s t IH]; intros H; [exists []; reflexivity|]. destruct (H s (or_introl eq_refl)) as (fl & E). destruct IH as (r & E2); [intros; apply H; now right|]. cbn [gather_flags]. rewrite E. cbn [obind]. rewrite E2. cbn [obind]. eauto.
Qed.
Lemma apply_op_comp o u v : veq u v -> veq (apply_op o u) (apply_op o v).
Proof. clear PO. destruct o as [[[[[a b] c] [[d e] f]] [[g h] i]] [[j k] l]], u as [[x y] z], v as [[x' y'] z']. cbn. intros (-> & -> & ->). repeat split; reflexivity. Qed.
Lemma row_done s y f t o bs : considered root argsort fracs found nlist (unique_atoms equiv) = Done bs -> In (s, y) bs -> In o ops -> exists r, the_row s y f t o = Some r /\ 0 <= g_site r.
Proof. clear PO.
  intros E H O. apply (proj1 (C171_considered bs E)) in H as (IS & reach & _ & _ & H1 & H2 & _). destruct (AW s reach y IS H1 H2) as [LY _].
  destruct (SY o s (0, 0, 0) O (SI s IS)) as (k & I1 & LK & V1). destruct (SY o (n_idx y) (n_image y) O LY) as (l & I2 & LL & V2).
  destruct (C116_row root fracs matrix (1 # 50) (mkBond s (n_idx y) (position fracs y) (n_dist y)) f (if t then 1 else 0)%Q o k l (site_coord fracs k) (site_coord fracs l) I1 I2 AP) as (r & R1 & R2 & _).
  - apply nth_error_nth'. exact LK.
  - apply nth_error_nth'. exact LL.
  - apply IN, nth_In, LK.
  - apply IN, nth_In, LL.
  - cbn [b_site]. assert (V3 : veq (apply_op o (nth s fracs zero3)) (apply_op o (vshift (site_coord fracs s) (0, 0, 0)))). { apply apply_op_comp. unfold site_coord, zero3. destruct (nth s fracs _) as [[a b] c]. cbn. repeat split; ring. }
    revert V1 V3. set (A := apply_op o (nth s fracs zero3)). set (B := apply_op o (vshift (site_coord fracs s) (0, 0, 0))). set (C := vshift (site_coord fracs k) I1). clearbody A B C. destruct A as [[a b] c], B as [[a' b'] c'], C as [[a'' b''] c'']. cbn. intros (-> & -> & ->) (-> & -> & ->). repeat split; reflexivity.
  - exact V2.
  - exists r. split; [exact R1|]. rewrite R2. lia.
Qed.
Theorem C175_done : exists out,
  get_voronoi_radii root argsort fracs equiv ops matrix found nlist order1 order2 uniq corners interp nearest coords covalent refinements = Done out.
Proof.
  clear PO. unfold get_voronoi_radii. destruct C171_done as (bs & E). rewrite E. cbn [obind]. fold (keys bs). rewrite (surjective_pairing (uniq (keys bs))). destruct (fractions_ok bs E) as (fr & E1 & L1 & F1 & _).
  assert (E2 : exists ty, the_types bs = Done ty). { unfold fractions, spread_fractions in E1. unfold bond_types. destruct (get_all_atom_elf_radii _ _ _ _ _ _ _) as [res| |]; cbn [obind] in *; try discriminate. eauto. }
  destruct E2 as (ty & E2). rewrite E1. cbn [obind]. rewrite E2. cbn [obind]. set (inverse := snd (uniq (keys bs))).
  assert (LI : length inverse = length bs). { unfold inverse. destruct (UQ (keys bs)) as (L & _). rewrite L. unfold keys. rewrite map_length. apply canonical_length. }
  assert (E3 : exists fl, flags root fracs corners bs fr inverse (site_ranges (map fst bs)) (unique_atoms equiv) 0 = Done fl).
  { destruct (considered_groups bs E) as (G & G1 & G2 & F & G3). set (T := combine bs (combine fr inverse)). assert (LC : length (combine fr inverse) = length bs) by (rewrite combine_length, L1, LI; apply Nat.min_id).
    assert (T1 : map fst T = bs) by (unfold T; apply map_fst_combine; now rewrite LC). assert (T2 : map snd T = combine fr inverse) by (unfold T; apply map_snd_combine; now rewrite LC).
    assert (T3 : map (fun t : nat * nn * (Q * nat) => fst (snd t)) T = fr) by (rewrite <- (map_map snd fst), T2; apply map_fst_combine; congruence). assert (T4 : map (fun t : nat * nn * (Q * nat) => snd (snd t)) T = inverse) by (rewrite <- (map_map snd snd), T2; apply map_snd_combine; congruence).
    assert (GN : G <> []). { intros ->. apply (considered_some bs E). rewrite G2. reflexivity. }
    assert (T5 : map fst T = cat G) by (rewrite T1; exact G2). pose proof (flags_all root fracs corners G T F GN T5) as FA. rewrite T1, T3, T4, G1 in FA. rewrite FA. apply gather_done. intros s IS.
    unfold flags_of, site_flags. rewrite unique_in in IS. assert (TI : forall b f c, In (b, (f, c)) T -> In b bs /\ In f fr). { intros b f c H. apply in_combine_nth in H as (i & H1 & H2). apply nth_combine in H2 as [H2 _]. split; eapply nth_error_In; eassumption. }
    destruct (corners (map (triple_plane root fracs) (of_site s T)) (site_coord fracs s)) as [vs|] eqn:EC; [cbn [oget obind]; eauto|]. exfalso. revert EC. apply CO.
    - destruct (proj2 (C171_considered bs E) s IS) as (z & Z1 & _). rewrite <- T1 in Z1. apply in_map_iff in Z1 as (t & Z1 & Z2). assert (X : In t (of_site s T)) by (apply filter_In; split; [exact Z2|]; rewrite Z1; apply Nat.eqb_refl). intros Y. apply (in_map (triple_plane root fracs)) in X. rewrite Y in X. destruct X.
    - intros e He. apply in_map_iff in He as ([[s' y] [f c]] & <- & H). apply filter_In in H as [H1 H2]. apply Nat.eqb_eq in H2. cbn in H2. subst s'. destruct (TI _ _ _ H1) as [H3 H4]. unfold triple_plane. cbn [fst snd]. apply own_below; [now apply F1|]. apply (proj1 (C171_considered bs E)) in H3 as (_ & reach & _ & _ & H5 & H6 & _). now apply (AW s reach y). }
  destruct E3 as (fl & E3). rewrite E3. cbn [obind]. unfold rows. set (kept := selected _ fl). set (input := map (fun '(b, (f, t)) => (as_bond fracs b, (f, if t : bool then 1%Q else 0%Q))) kept).
  assert (GI : forall x, In x (generate_symmetric_bonds root fracs matrix (1 # 50) input ops) -> exists r, x = Some r /\ 0 <= g_site r).
  { intros x H. unfold generate_symmetric_bonds in H. apply in_flat_map in H as ([b [f q]] & H1 & H2). apply in_map_iff in H1 as ([[s y] [f' t]] & E7 & H1). injection E7 as <- <- <-. apply in_map_iff in H2 as (o & <- & H2).
    unfold kept in H1. apply in_selected in H1 as (i & H1 & _). apply nth_combine in H1 as [H1 _]. apply nth_error_In in H1. destruct (row_done s y f' t o bs E H1 H2) as (r & R1 & R2). exists r. split; [exact R1|exact R2]. }
  destruct (all_rows_done (generate_symmetric_bonds root fracs matrix (1 # 50) input ops)) as (l & E4); [intros x H ->; apply GI in H as (r & H & _); discriminate|]. rewrite E4. cbn [obind]. apply all_rows_spec in E4.
  replace (existsb (fun r => g_site r =? -1) (unique_rows l)) with false; [eauto|]. symmetry. apply not_true_iff_false. intros X. apply existsb_exists in X as (r & R1 & R2). apply Z.eqb_eq in R2. destruct (unique_rows_spec l) as (_ & S2 & _). apply S2 in R1. apply (in_map Some) in R1. rewrite <- E4 in R1. apply GI in R1 as (r' & R3 & R4). injection R3 as <-. lia.
Qed.
End Plan.
(** Complementary fractions of a bond and its reverse, moved by [t], describe one plane, seen from both sides. *)
Theorem C174_plane root s n s' n' f g t x x' : pos_root root -> (forall a b, (a == b)%Q -> (root a == root b)%Q) -> (0 < norm2 (vsub n s))%Q -> (f + g == 1)%Q ->
  veq s' (vsub n t) -> veq n' (vsub s t) -> veq x' (vsub x t) -> (plane_value (plane_equation root s' n' g) x' == - plane_value (plane_equation root s n f) x)%Q.
Proof.
  intros PR RP N FG ES EN EX. assert (NE : (norm2 (vsub n' s') == norm2 (vsub n s))%Q).
  { destruct s as [[s1 s2] s3], n as [[n1 n2] n3], s' as [[s1' s2'] s3'], n' as [[n1' n2'] n3'], t as [[t1 t2] t3]. cbn in *. destruct ES as (-> & -> & ->), EN as (-> & -> & ->). ring. }
  pose proof (plane_value_times root s n f x N PR) as A. pose proof (plane_value_times root s' n' g x' ltac:(rewrite NE; exact N) PR) as B. specialize (RP _ _ NE). specialize (PR _ N). rewrite RP in B. rewrite NE in B.
  assert (VD : (vdot (vsub n' s') (vsub x' s') == norm2 (vsub n s) - vdot (vsub n s) (vsub x s))%Q).
  { clear A B NE N RP. destruct s as [[s1 s2] s3], n as [[n1 n2] n3], s' as [[s1' s2'] s3'], n' as [[n1' n2'] n3'], t as [[t1 t2] t3], x as [[x1 x2] x3], x' as [[x1' x2'] x3']. cbn in *. destruct ES as (-> & -> & ->), EN as (-> & -> & ->), EX as (-> & -> & ->). ring. }
  rewrite VD in B. set (q := norm2 (vsub n s)) in *. set (d := vdot (vsub n s) (vsub x s)) in *. set (r := root q) in *. set (u := plane_value _ x') in *. set (w := plane_value _ x) in *. clearbody q d r u w. clear VD NE RP.
  assert (G : (g == 1 - f)%Q) by lra. rewrite G in B. assert (H : ((u + w) * r == 0)%Q) by (rewrite Qmult_plus_distr_l, A, B; ring). apply Qmult_integral in H as [H|H]; lra.
Qed.
Print Assumptions C171_considered. Print Assumptions C171_done. Print Assumptions C172_types. Print Assumptions C172_result. Print Assumptions C173_flags. Print Assumptions C174_half. Print Assumptions C174_ends. Print Assumptions C174_plane. Print Assumptions C175_done.
