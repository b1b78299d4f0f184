(** Lemmas on the dividing planes. *)
From Coq Require Import QArith Lqa Sorted.
From Verif Require Import Base WeightModel RootsModel RootsProofs UnionModel ChargeModel CoordModel NearModel RefineModel PlaneModel PlaneWrap PlaneProps EnvModel RadModel RadProofs BondModel VorModel.
Local Open Scope Z_scope.

Definition tiny : Q := 1 # 1000000000000.
Definition pos_root (root : Q -> Q) : Prop := forall x, (0 < x)%Q -> (0 < root x)%Q.

Lemma plane_value_eq root s n f p : plane_value (plane_equation root s n f) p = 
  let u := vmap (fun x => x / root (norm2 (vsub n s)))%Q (vsub n s) in (vdot u p + - vdot u (vadd (vscale f (vsub n s)) s))%Q.
Proof. reflexivity. Qed.
(** The value of a plane, without the division. *)
Lemma plane_value_times root s n f p : (0 < norm2 (vsub n s))%Q -> pos_root root ->
  (plane_value (plane_equation root s n f) p * root (norm2 (vsub n s)) == vdot (vsub n s) (vsub p s) - f * norm2 (vsub n s))%Q.
Proof.
  intros N R. specialize (R _ N). rewrite plane_value_eq. destruct s as [[s1 s2] s3], n as [[n1 n2] n3], p as [[p1 p2] p3]. set (r := root _) in *. clearbody r. cbn [vsub vmap vadd vscale vdot norm2]. field. lra.
Qed.
Lemma below_iff root s n f p e : (0 < norm2 (vsub n s))%Q -> pos_root root ->
  ((plane_value (plane_equation root s n f) p <= e)%Q <-> (vdot (vsub n s) (vsub p s) <= f * norm2 (vsub n s) + e * root (norm2 (vsub n s)))%Q).
Proof.
  intros N R. pose proof (plane_value_times root s n f p N R) as E. specialize (R _ N). set (v := plane_value _ _) in *. set (r := root _) in *. set (d := vdot _ _) in *. set (q := norm2 _) in *. clearbody v r d q.
  assert (E' : (d == v * r + f * q)%Q) by lra. rewrite E'. clear E E'. split; intro H.
  - assert (0 <= (e - v) * r)%Q by (apply Qmult_le_0_compat; lra). lra.
  - destruct (Qlt_le_dec e v) as [L|L]; [|exact L]. exfalso. assert (0 < (v - e) * r)%Q by (apply Qmult_lt_0_compat; lra). lra.
Qed.
Lemma norm2_nonneg v : (0 <= norm2 v)%Q.
Proof. destruct v as [[x y] z]. cbn. nra. Qed.
Lemma vdot_half a b : (2 * vdot a b <= norm2 a + norm2 b)%Q.
Proof.
  destruct a as [[x y] z], b as [[u v] w]. cbn. assert (H : forall p q : Q, (0 <= (p - q) * (p - q))%Q) by (intros p q; generalize (p - q)%Q; intro; nra).
  pose proof (H x u). pose proof (H y v). pose proof (H z w). lra.
Qed.
Lemma vdot_self a : (vdot a a == norm2 a)%Q.
Proof. destruct a as [[x y] z]. cbn. ring. Qed.

(** ** Insertion of rows *)
Lemma lexcmp_sym : forall a b, lexcmp b a = CompOpp (lexcmp a b).
Proof.
  induction a as [|x a IH]; intros [|y b]; try reflexivity. cbn [lexcmp]. unfold lexcmp_step. rewrite <- (Qcompare_antisym x y). destruct (x ?= y)%Q eqn:E; cbn; [apply IH|reflexivity|reflexivity].
Qed.
Lemma lexcmp_trans : forall a b c, length a = length b -> length b = length c -> lexcmp a b = Lt -> lexcmp b c = Lt -> lexcmp a c = Lt.
Proof.
  induction a as [|x a IH]; intros [|y b] [|z c] L1 L2 H1 H2; try discriminate. cbn [lexcmp] in *. unfold lexcmp_step in *.
  destruct (x ?= y)%Q eqn:E1; try discriminate; destruct (y ?= z)%Q eqn:E2; try discriminate.
  - apply Qeq_alt in E1, E2. assert (E : (x ?= z)%Q = Eq) by (apply (proj1 (Qeq_alt x z)); lra). rewrite E. cbn in *. apply (IH b c); congruence.
  - apply Qeq_alt in E1. apply Qlt_alt in E2. assert (E : (x ?= z)%Q = Lt) by (apply (proj1 (Qlt_alt x z)); lra). now rewrite E.
  - apply Qeq_alt in E2. apply Qlt_alt in E1. assert (E : (x ?= z)%Q = Lt) by (apply (proj1 (Qlt_alt x z)); lra). now rewrite E.
  - apply Qlt_alt in E1, E2. assert (E : (x ?= z)%Q = Lt) by (apply (proj1 (Qlt_alt x z)); lra). now rewrite E.
Qed.
Definition row_lt (a b : row) : Prop := lexcmp (row_key a) (row_key b) = Lt.
Definition row_same (a b : row) : Prop := lexcmp (row_key a) (row_key b) = Eq.
Lemma row_key_length r : length (row_key r) = 14%nat.
Proof. unfold row_key. destruct (g_point r) as [[? ?] ?], (g_vector r) as [[? ?] ?], (g_coord r) as [[? ?] ?]. reflexivity. Qed.
Lemma row_lt_trans a b c : row_lt a b -> row_lt b c -> row_lt a c.
Proof. apply lexcmp_trans; now rewrite !row_key_length. Qed.
Lemma row_lt_site a b : row_lt a b -> g_site a <= g_site b.
Proof.
  unfold row_lt, row_key. destruct (g_point a) as [[? ?] ?], (g_vector a) as [[? ?] ?], (g_coord a) as [[? ?] ?], (g_point b) as [[? ?] ?], (g_vector b) as [[? ?] ?], (g_coord b) as [[? ?] ?]. cbn [lexcmp]. unfold lexcmp_step at 1.
  destruct (inject_Z (g_site a) ?= inject_Z (g_site b))%Q eqn:E; [apply Qeq_alt in E|apply Qlt_alt in E|discriminate]; intros _; [assert (inject_Z (g_site a) <= inject_Z (g_site b))%Q by lra; now rewrite <- Zle_Qle in *|].
  apply Qlt_le_weak in E. now rewrite <- Zle_Qle in E.
Qed.
Lemma insert_in r l x : In x (insert_row r l) -> x = r \/ In x l.
Proof.
  induction l as [|y l IH]; cbn [insert_row]; [intros [<-|[]]; auto|]. destruct (lexcmp _ _); [auto| |]; intros [<-|H]; auto; [now right; left|]. destruct (IH H); [auto|now right; right].
Qed.
Lemma insert_has r l : exists x, In x (insert_row r l) /\ row_same r x.
Proof.
  induction l as [|y l IH]; cbn [insert_row].
  - exists r. split; [now left|]. unfold row_same. pose proof (lexcmp_sym (row_key r) (row_key r)) as E. destruct (lexcmp _ _); cbn in E; congruence.
  - destruct (lexcmp (row_key r) (row_key y)) eqn:E.
    + exists y. split; [now left|exact E].
    + exists r. split; [now left|]. unfold row_same. pose proof (lexcmp_sym (row_key r) (row_key r)) as E'. destruct (lexcmp (row_key r) (row_key r)); cbn in E'; congruence.
    + destruct IH as (x & H1 & H2). exists x. split; [now right|exact H2].
Qed.
Lemma insert_keeps r l x : In x l -> In x (insert_row r l).
Proof. induction l as [|y l IH]; [intros []|]. cbn [insert_row]. intros [<-|H]; destruct (lexcmp _ _); cbn; auto. Qed.
Lemma insert_sorted r l : StronglySorted row_lt l -> StronglySorted row_lt (insert_row r l).
Proof.
  induction 1 as [|y l S IH F]; cbn [insert_row]; [repeat constructor|]. destruct (lexcmp (row_key r) (row_key y)) eqn:E.
  - now constructor.
  - constructor; [now constructor|]. constructor; [exact E|]. rewrite Forall_forall in *. intros z Z1. apply (row_lt_trans r y z E). now apply F.
  - constructor; [exact IH|]. rewrite Forall_forall in *. intros z Z1. apply insert_in in Z1 as [->|Z1]; [|now apply F]. unfold row_lt. rewrite lexcmp_sym, E. reflexivity.
Qed.
Lemma unique_rows_spec l : StronglySorted row_lt (unique_rows l) /\ (forall x, In x (unique_rows l) -> In x l) /\ (forall x, In x l -> exists y, In y (unique_rows l) /\ row_same x y).
Proof.
  induction l as [|r l (S1 & S2 & S3)]; cbn [unique_rows fold_right]; [split; [constructor|split; [intros x []|intros x []]]|]. fold (unique_rows l). split; [now apply insert_sorted|]. split.
  - intros x H. apply insert_in in H as [->|H]; [now left|right; auto].
  - intros x [<-|H]; [apply insert_has|]. destruct (S3 x H) as (y & Y1 & Y2). exists y. split; [now apply insert_keeps|exact Y2].
Qed.
Lemma all_rows_spec l r : all_rows l = Done r -> l = map Some r.
Proof.
  revert r. induction l as [|[x|] l IH]; intros r; cbn [all_rows]; [intros [= <-]; reflexivity| |discriminate].
  destruct (all_rows l) as [t| |]; cbn [obind]; try discriminate. intros [= <-]. cbn. f_equal. now apply IH.
Qed.
Lemma all_rows_done l : (forall x, In x l -> x <> None) -> exists r, all_rows l = Done r.
Proof.
  induction l as [|[x|] l IH]; intros H; [exists []; reflexivity| |exfalso; apply (H None); [now left|reflexivity]].
  destruct IH as (r & E); [intros; apply H; now right|]. cbn. rewrite E. cbn. eauto.
Qed.

(** ** Ranges of sites *)
Notation vbond := (nat * nn)%type.
Definition cat (G : list (nat * list nn)) : list vbond := flat_map (fun '(s, l) => map (fun y => (s, y)) l) G.
Definition full (G : list (nat * list nn)) : Prop := NoDup (map fst G) /\ forall s l, In (s, l) G -> l <> [].
Lemma group_sites (s : nat) l : map fst (map (fun y : nn => (s, y)) l) = repeat s (length l).
Proof. induction l; cbn; [reflexivity|now f_equal]. Qed.
Lemma changes_group s rest : match rest with [] => True | a :: _ => a <> s end -> forall n i,
  changes (repeat s (S n) ++ rest) i = match rest with [] => [] | _ => (i + S n)%nat :: changes rest (i + S n) end.
Proof.
  intros H. induction n as [|n IH]; intros i.
  - cbn [repeat app]. destruct rest as [|a t]; [reflexivity|]. cbn [changes]. destruct (Nat.eqb_spec s a); [congruence|]. now replace (i + 1)%nat with (S i) by lia.
  - change (repeat s (S (S n)) ++ rest) with (s :: s :: (repeat s n ++ rest)). cbn [changes]. rewrite Nat.eqb_refl. specialize (IH (S i)). change (repeat s (S n) ++ rest) with (s :: (repeat s n ++ rest)) in IH. etransitivity; [exact IH|]. now replace (S i + S n)%nat with (i + S (S n))%nat by lia.
Qed.
Definition sizes (G : list (nat * list nn)) : list nat := map (fun g => length (snd g)) G.
Definition total (l : list nat) : nat := fold_right Nat.add 0%nat l.
Lemma cat_length G : length (cat G) = total (sizes G).
Proof. induction G as [|[s l] G IH]; [reflexivity|]. cbn [cat flat_map sizes map total fold_right snd]. fold (cat G) (sizes G) (total (sizes G)). rewrite app_length, map_length. now rewrite IH. Qed.
Lemma cat_head s l G : full ((s, l) :: G) -> match map fst (cat G) with [] => True | a :: _ => a <> s end.
Proof.
  intros [ND NE]. destruct G as [|[s' [|y l']] G]; [exact I| |].
  - exfalso. apply (NE s' []); [right; now left|reflexivity].
  - cbn. intros ->. cbn in ND. inversion ND as [|? ? X _]; subst. apply X. now left.
Qed.
Lemma full_tail g G : full (g :: G) -> full G.
Proof. intros [ND NE]. cbn in ND. inversion ND; subst. split; [assumption|]. intros s l H. apply (NE s l). now right. Qed.
Lemma ranges_from G : full G -> forall i, G <> [] -> changes (map fst (cat G)) i ++ [(i + length (cat G))%nat] = map (fun k => (i + total (firstn k (sizes G)))%nat) (seq 1 (length G)).
Proof.
  induction G as [|[s l] G IH]; intros F i NE; [congruence|]. cbn [cat flat_map]. fold (cat G). rewrite map_app, group_sites.
  destruct l as [|y l]; [exfalso; destruct F as [_ X]; apply (X s []); [now left|reflexivity]|]. cbn [length]. rewrite (changes_group s (map fst (cat G)) (cat_head _ _ _ F)).
  rewrite app_length, map_length. cbn [length seq map sizes firstn snd]. fold (sizes G).
  destruct G as [|g G].
  - reflexivity.
  - assert (NC : cat (g :: G) <> []) by (destruct g as [s' [|y' l']]; [exfalso; destruct F as [_ X]; apply (X s' []); [right; now left|reflexivity]|discriminate]).
    destruct (map fst (cat (g :: G))) as [|a m] eqn:E; [apply map_eq_nil in E; congruence|]. rewrite <- E. cbn [app]. f_equal; [cbn; lia|].
    specialize (IH (full_tail _ _ F) (i + S (length l))%nat ltac:(discriminate)). replace (i + (S (length l) + length (cat (g :: G))))%nat with (i + S (length l) + length (cat (g :: G)))%nat by lia. rewrite E, IH. rewrite <- (seq_shift (length (g :: G)) 1), map_map. apply map_ext. intros k. cbn [firstn]. unfold total at 2. cbn [fold_right]. fold (total (firstn k (sizes (g :: G)))). lia.
Qed.
Lemma ranges_nth G k : full G -> (k <= length G)%nat -> G <> [] -> nth_error (site_ranges (map fst (cat G))) k = Some (total (firstn k (sizes G))).
Proof.
  intros F K NE. unfold site_ranges. rewrite map_length. pose proof (ranges_from G F 0%nat NE) as E. cbn [Nat.add] in E. rewrite E. destruct k as [|k]; [reflexivity|]. cbn [nth_error].
  rewrite nth_error_map, (nth_error_nth' _ 0%nat) by (rewrite seq_length; lia). rewrite seq_nth by lia. cbn [option_map]. reflexivity.
Qed.
Lemma slice_app {A} (a b c : list A) : slice (a ++ b ++ c) (length a) (length a + length b) = b.
Proof.
  unfold slice. rewrite skipn_app, skipn_all, Nat.sub_diag. cbn [app skipn]. replace (length a + length b - length a)%nat with (length b) by lia.
  rewrite firstn_app, firstn_all, Nat.sub_diag. cbn [firstn]. apply app_nil_r.
Qed.
Lemma slice_map {A B} (f : A -> B) l i j : slice (map f l) i j = map f (slice l i j).
Proof. unfold slice. now rewrite skipn_map, firstn_map. Qed.

Lemma slice_combine {A B} (l : list A) (m : list B) i j : slice (combine l m) i j = combine (slice l i j) (slice m i j).
Proof.
  unfold slice. rewrite <- combine_firstn. f_equal. revert l m. induction i as [|i IH]; intros [|a l] [|b m]; cbn [skipn combine]; try reflexivity; [|apply IH].
  destruct (skipn i l); reflexivity.
Qed.

(** ** Flags: every bond is judged with the planes of its own site *)
Section Flags.
Variables (root : Q -> Q) (fracs : list vec) (corners : list eqn -> vec -> option (list vec)).
Notation place := (position fracs).
Notation home := (site_coord fracs).
Notation triple := (vbond * (Q * nat))%type.
Definition triple_plane (t : triple) : eqn := plane_equation root (home (fst (fst t))) (place (snd (fst t))) (fst (snd t)).
Definition of_site (s : nat) (T : list triple) : list triple := filter (fun t => Nat.eqb (fst (fst t)) s) T.
Lemma of_site_app s a b : of_site s (a ++ b) = of_site s a ++ of_site s b.
Proof. apply filter_app. Qed.
Definition flags_of (T : list triple) (s : nat) : outcome (list bool) :=
  site_flags fracs corners s (map triple_plane (of_site s T)) (map (fun t => snd (snd t)) (of_site s T)).
Fixpoint gather_flags (T : list triple) (sites : list nat) : outcome (list bool) :=
  match sites with [] => Done [] | s :: t => obind (flags_of T s) (fun fl => obind (gather_flags T t) (fun r => Done (fl ++ r))) end.
Lemma in_cat G s y : In (s, y) (cat G) <-> exists l, In (s, l) G /\ In y l.
Proof.
  unfold cat. rewrite in_flat_map. split.
  - intros ([s' l] & H1 & H2). apply in_map_iff in H2 as (z & E & H2). injection E as <- <-. eauto.
  - intros (l & H1 & H2). exists (s, l). split; [exact H1|]. apply in_map_iff. eauto.
Qed.
(** A block of triples with the bonds of one group. *)
Lemma block_same s l (T : list triple) : map fst T = map (fun y => (s, y)) l -> of_site s T = T.
Proof.
  revert l. induction T as [|t T IH]; intros [|y l] E; try discriminate; [reflexivity|]. cbn in E. injection E as E1 E2. unfold of_site. cbn [filter]. rewrite E1. cbn [fst]. rewrite Nat.eqb_refl. f_equal. now apply (IH l).
Qed.
Lemma block_other s (T : list triple) : ~ In s (map (fun t => fst (fst t)) T) -> of_site s T = [].
Proof.
  induction T as [|t T IH]; intros H; [reflexivity|]. unfold of_site. cbn [filter]. destruct (Nat.eqb_spec (fst (fst t)) s); [exfalso; apply H; now left|]. apply IH. intro X. apply H. now right.
Qed.
Lemma cat_split g G (T : list triple) : map fst T = cat (g :: G) -> exists T1 T2, T = T1 ++ T2 /\ map fst T1 = map (fun y => (fst g, y)) (snd g) /\ map fst T2 = cat G.
Proof.
  destruct g as [s l]. cbn [cat flat_map fst snd]. fold (cat G). intros E. exists (firstn (length l) T), (skipn (length l) T). split; [symmetry; apply firstn_skipn|]. rewrite <- firstn_map, <- skipn_map, E.
  rewrite <- (map_length (fun y => (s, y)) l). split; [rewrite firstn_app, firstn_all, Nat.sub_diag; cbn; apply app_nil_r|]. rewrite skipn_app, skipn_all, Nat.sub_diag. reflexivity.
Qed.
Lemma flags_groups : forall G (T0 T : list triple), full G -> map fst T = cat G -> (forall s, In s (map fst G) -> ~ In s (map (fun t => fst (fst t)) T0)) ->
  forall ranges k, (forall j, (j <= length G)%nat -> nth_error ranges (k + j) = Some (length T0 + total (firstn j (sizes G)))%nat) ->
  let U := T0 ++ T in
  flags root fracs corners (map fst U) (map (fun t => fst (snd t)) U) (map (fun t => snd (snd t)) U) ranges (map fst G) k = gather_flags U (map fst G).
Proof.
  induction G as [|[s l] G IH]; intros T0 T F E AP ranges k R U; [reflexivity|]. destruct (cat_split (s, l) G T E) as (T1 & T2 & -> & E1 & E2). cbn [fst snd] in E1. cbn [map fst flags gather_flags].
  pose proof (R 0%nat ltac:(lia)) as R0. pose proof (R 1%nat ltac:(cbn; lia)) as R1. rewrite Nat.add_0_r in R0. replace (k + 1)%nat with (S k) in R1 by lia. rewrite R0, R1. cbn [oget obind]. cbn [sizes map firstn total fold_right snd] in *. rewrite !Nat.add_0_r.
  assert (L1 : length T1 = length l) by (rewrite <- (map_length fst T1), E1; apply map_length). rewrite <- L1.
  assert (OS : of_site s U = T1).
  { unfold U. rewrite !of_site_app. rewrite (block_other s T0) by (apply AP; now left). rewrite (block_same s l T1 E1). rewrite (block_other s T2); [now rewrite app_nil_r|]. intros H. rewrite <- map_map, E2 in H. apply in_map_iff in H as ([s' y] & E3 & H). cbn in E3. subst s'. apply in_cat in H as (l' & H & _). destruct F as [ND _]. cbn in ND. inversion ND as [|? ? X _]; subst. apply X. apply in_map_iff. now exists (s, l'). }
  assert (SL : slice U (length T0) (length T0 + length T1) = T1) by apply slice_app.
  rewrite <- slice_combine, !slice_map, SL. unfold flags_of. rewrite OS.
  assert (EQ : map (fun '(b, f) => plane_equation root (home s) (place (snd b)) f) (slice (combine (map fst U) (map (fun t => fst (snd t)) U)) (length T0) (length T0 + length T1)) = map triple_plane T1).
  { rewrite slice_combine, !slice_map, SL. clear -E1. revert l E1. induction T1 as [|[[a y] [f c]] T1 IH]; intros [|z l] E1; try discriminate; [reflexivity|]. cbn in E1. injection E1 as -> -> E1. cbn [map combine fst snd]. f_equal. now apply (IH l). }
  rewrite EQ. destruct (site_flags fracs corners s (map triple_plane T1) (map (fun t => snd (snd t)) T1)) as [fl| |]; cbn [obind]; try reflexivity.
  assert (EU : U = (T0 ++ T1) ++ T2) by (unfold U; apply app_assoc). rewrite EU. rewrite (IH (T0 ++ T1) T2 (full_tail _ _ F) E2).
  - reflexivity.
  - intros s' H1 H2. rewrite map_app in H2. apply in_app_or in H2 as [H2|H2]; [now apply (AP s'); [right|]|]. rewrite <- map_map, E1 in H2. apply in_map_iff in H2 as ([s2 y] & E3 & H2). apply in_map_iff in H2 as (y' & E4 & _). injection E4 as <- <-. cbn in E3. subst s'. destruct F as [ND _]. cbn in ND. inversion ND as [|? ? X _]. contradiction.
  - intros j J. specialize (R (S j) ltac:(cbn; lia)). replace (S k + j)%nat with (k + S j)%nat by lia. rewrite R. cbn [firstn total fold_right]. fold (total (firstn j (sizes G))). rewrite app_length, L1. f_equal. unfold total, sizes. lia.
Qed.
Lemma flags_all G (T : list triple) : full G -> G <> [] -> map fst T = cat G ->
  flags root fracs corners (map fst T) (map (fun t => fst (snd t)) T) (map (fun t => snd (snd t)) T) (site_ranges (map fst (map fst T))) (map fst G) 0 = gather_flags T (map fst G).
Proof.
  intros F NE E. apply (flags_groups G [] T F E); [intros s _ []|]. intros j J. cbn [length Nat.add]. rewrite E. now apply ranges_nth.
Qed.
(** The verdict on a class of planes of a site. *)
Definition first_of (P : list triple) (c : nat) (t : triple) : Prop :=
  exists i, nth_error P i = Some t /\ snd (snd t) = c /\ forall j u, (j < i)%nat -> nth_error P j = Some u -> snd (snd u) <> c.
Definition three_on (vs : list vec) (e : eqn) : bool := Nat.leb 3 (length (filter (fun p => Qle_bool (qabs (plane_value e p)) tiny) vs)).
Lemma index_first c l : In c l -> forall j x, (j < Z.to_nat (index_of c l))%nat -> nth_error l j = Some x -> x <> c.
Proof.
  induction l as [|y t IH]; intros H; [contradiction|]. cbn [index_of]. destruct (Z.eqb_spec c y) as [->|N]; [intros j x J; cbn in J; lia|]. destruct H as [->|H]; [congruence|].
  pose proof (index_of_range c t H). intros [|j] x J E; cbn in E; [congruence|]. apply (IH H j x); [lia|exact E].
Qed.
Lemma on_surface_three e vs : on_surface e tiny vs 0 = three_on vs e.
Proof.
  rewrite on_surface_spec by lia. unfold three_on. cbn [Nat.add]. do 2 f_equal. apply filter_ext. intros [[x y] z]. destruct e as [[[a b] c] d]. unfold plane_value, vdot. unfold Qltb. rewrite negb_involutive.
  assert (E : (qabs (x * a + y * b + z * c + d) == qabs (a * x + b * y + c * z + d))%Q).
  { assert (E : (x * a + y * b + z * c + d == a * x + b * y + c * z + d)%Q) by ring. unfold qabs. rewrite (Qltb_comp _ 0 _ 0 E (Qeq_refl _)). destruct (Qltb _ 0); rewrite E; reflexivity. }
  apply eq_true_iff_eq. rewrite !Qle_bool_iff. now rewrite E.
Qed.
Lemma site_flags_spec P s fl : site_flags fracs corners s (map triple_plane P) (map (fun t => snd (snd t)) P) = Done fl ->
  exists vs, corners (map triple_plane P) (home s) = Some vs /\ length fl = length P /\
    forall i t, nth_error P i = Some t -> exists t0, first_of P (snd (snd t)) t0 /\ nth_error fl i = Some (three_on vs (triple_plane t0)).
Proof.
  unfold site_flags. destruct (corners _ _) as [vs|]; cbn [oget obind]; [|discriminate]. set (cls := map Z.of_nat _). set (u := np_unique cls). intros [= <-]. exists vs. split; [reflexivity|]. split; [rewrite map_length; unfold cls; now rewrite !map_length|].
  intros i t E. set (c := Z.of_nat (snd (snd t))). assert (EC : nth_error cls i = Some c) by (unfold cls; rewrite map_map, nth_error_map, E; reflexivity).
  assert (IC : In c cls) by (now apply nth_error_In in EC). assert (IU : In c u) by (apply np_unique_in; exact IC).
  pose proof (index_of_nth c cls IC) as N1. pose proof (index_of_nth c u IU) as N2. pose proof (index_of_range c u IU) as R2.
  pose proof N1 as N1'. unfold cls in N1' at 1. rewrite map_map, nth_error_map in N1'. destruct (nth_error P (Z.to_nat (index_of c cls))) as [t0|] eqn:E0; [|discriminate]. cbn in N1'. injection N1' as N1'.
  exists t0. split.
  - exists (Z.to_nat (index_of c cls)). split; [exact E0|]. split; [unfold c in N1'; lia|]. intros j v J EV X. apply (index_first c cls IC j c J); [|reflexivity]. unfold cls. rewrite map_map, nth_error_map, EV. cbn. now rewrite X.
  - rewrite nth_error_map, EC. cbn [option_map]. f_equal. unfold planes_on_surface. rewrite map_map.
    rewrite (nth_error_nth _ _ false (x := on_surface (triple_plane t0) tiny vs 0)); [apply on_surface_three|]. rewrite nth_error_map, N2. cbn [option_map]. do 2 f_equal. apply nth_error_nth. now rewrite nth_error_map, E0.
Qed.
Lemma gather_groups (U : list triple) : forall G T fl, full G -> map fst T = cat G -> (forall s, In s (map fst G) -> of_site s U = of_site s T) -> gather_flags U (map fst G) = Done fl ->
  length fl = length T /\ forall i t, nth_error T i = Some t -> let s := fst (fst t) in
    exists vs t0, corners (map triple_plane (of_site s U)) (home s) = Some vs /\ first_of (of_site s U) (snd (snd t)) t0 /\ nth_error fl i = Some (three_on vs (triple_plane t0)).
Proof.
  induction G as [|[s l] G IH]; intros T fl F E OS.
  - destruct T; [|discriminate]. cbn. intros [= <-]. split; [reflexivity|]. intros [|i] t X; discriminate.
  - destruct (cat_split (s, l) G T E) as (T1 & T2 & -> & E1 & E2). cbn [fst snd] in E1. cbn [map fst gather_flags].
    assert (FT : full G) by exact (full_tail _ _ F). pose proof F as [ND _]. cbn in ND. inversion ND as [|? ? X _]; subst x l0.
    assert (O1 : of_site s (T1 ++ T2) = T1).
    { rewrite of_site_app, (block_same s l T1 E1), (block_other s T2); [apply app_nil_r|]. intros H. rewrite <- map_map, E2 in H. apply in_map_iff in H as ([s' y] & E3 & H). cbn in E3. subst s'. apply in_cat in H as (l' & H & _). apply X. apply in_map_iff. now exists (s, l'). }
    assert (O2 : forall s', In s' (map fst G) -> of_site s' (T1 ++ T2) = of_site s' T2).
    { intros s' H. rewrite of_site_app, (block_other s' T1); [reflexivity|]. intros Y. rewrite <- map_map, E1, map_map in Y. apply in_map_iff in Y as (y & E3 & _). cbn in E3. subst s'. contradiction. }
    unfold flags_of at 1. rewrite (OS s (or_introl eq_refl)), O1. destruct (site_flags fracs corners s (map triple_plane T1) (map (fun t => snd (snd t)) T1)) as [fl1| |] eqn:E3; cbn [obind]; try discriminate.
    destruct (gather_flags U (map fst G)) as [fl2| |] eqn:E4; cbn [obind]; try discriminate. intros [= <-]. destruct (site_flags_spec T1 s fl1 E3) as (vs & C1 & L1 & S1).
    destruct (IH T2 fl2 FT E2) as (L2 & S2); [intros s' H; rewrite (OS s' (or_intror H)); now apply O2|reflexivity|]. split; [now rewrite !app_length, L1, L2|].
    intros i t H. destruct (Nat.lt_ge_cases i (length T1)) as [LT|GE].
    + rewrite nth_error_app1 in H |- * by lia. assert (ES : fst (fst t) = s) by (apply (map_nth_error fst) in H; rewrite E1 in H; apply nth_error_In, in_map_iff in H as (y & <- & _); reflexivity). rewrite ES. cbv zeta. rewrite (OS s (or_introl eq_refl)), O1.
      destruct (S1 i t H) as (t0 & F0 & N0). exists vs, t0. auto.
    + rewrite nth_error_app2 in H |- * by lia. rewrite L1. now apply S2.
Qed.
End Flags.
