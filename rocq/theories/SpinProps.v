(** Properties of spin-resolved results. *)
From Coq Require Import Ascii String QArith Qround Qabs Lqa Setoid.
From Verif Require Import Base NearModel NearProofs ChargeModel ChargeProofs RootsModel UnionModel TextModel VaspModel VaspProofs SpinModel SpinProofs.
Local Open Scope Z_scope.

Definition nosite : site := ([], (0, 0, 0)%Q).
Definition at_ (s : list site) (i : nat) : site := nth i s nosite.
Definition val (l : list Q) (i : nat) : Q := nth i l 0%Q.
(** No site of [s] equals [x]. *)
Definition unmatched (near : vec -> vec -> bool) (s : list site) (x : site) : Prop :=
  forall v, In v s -> site_eqb near v x = false.

Section Props.
Variable near : vec -> vec -> bool.

Lemma combine_seq {A B} (da : A) (db : B) l m : List.length l = List.length m ->
  combine l m = map (fun j => (nth j l da, nth j m db)) (seq 0 (List.length l)).
Proof.
  revert m. induction l as [|a l IH]; intros [|b m] H; try discriminate; [reflexivity|]. cbn [combine List.length seq map nth].
  f_equal. rewrite <- seq_shift, map_map. apply IH. cbn in H. lia.
Qed.

Lemma combine_fst {A B C} (l : list A) (m : list B) (k : list C) : List.length l = List.length m -> List.length l = List.length k ->
  map (fun d => (fst d, fst (snd d))) (combine l (combine m k)) = combine l m /\
  map (fun d => (fst d, snd (snd d))) (combine l (combine m k)) = combine l k.
Proof.
  revert m k. induction l as [|a l IH]; intros [|b m] [|c k] H1 H2; try discriminate; [split; reflexivity|].
  cbn in H1, H2. cbn [combine map fst snd]. destruct (IH m k) as [-> ->]; [lia|lia|]. split; reflexivity.
Qed.

Lemma combine_snd {A B} (l : list A) (m : list B) : List.length l = List.length m -> map snd (combine l m) = m.
Proof. revert m. induction l as [|a l IH]; intros [|b m] H; try discriminate; [reflexivity|]. cbn. f_equal. apply IH. cbn in H. lia. Qed.

Lemma filter_nth (q : nat -> bool) j n : (j < n)%nat -> q j = true ->
  (List.length (filter q (seq 0 j)) < List.length (filter q (seq 0 n)))%nat /\
  forall d, nth (List.length (filter q (seq 0 j))) (filter q (seq 0 n)) d = j.
Proof.
  intros L E. replace n with (j + S (n - S j))%nat by lia. rewrite seq_app, filter_app. cbn [seq filter Nat.add]. rewrite E.
  split; [rewrite app_length; cbn; lia|]. intros d. rewrite app_nth2 by lia. now rewrite Nat.sub_diag.
Qed.

Section Systems.
Variables (up down : list site) (c_up v_up c_down v_down : list Q).
Hypothesis HC : List.length c_up = List.length up.
Hypothesis HV : List.length v_up = List.length up.
Hypothesis DC : List.length c_down = List.length down.
Hypothesis DV : List.length v_down = List.length down.

Lemma results_one : merge_results near up down c_up v_up c_down v_down =
  Done (one near up (combine down c_down) c_up, map (fun x => x / 2)%Q (one near up (combine down v_down) v_up)).
Proof.
  unfold merge_results. rewrite merge_sites_one by lia. destruct (combine_fst down c_down v_down) as [-> ->]; [lia|lia|]. reflexivity.
Qed.

Lemma val_half l i : (val (map (fun x => x / 2)%Q l) i == val l i / 2)%Q.
Proof. unfold val. rewrite <- (map_nth (fun x => x / 2)%Q l 0%Q i). destruct (Nat.ltb_spec i (List.length l)).
  - erewrite nth_indep; [reflexivity|]. now rewrite map_length.
  - rewrite !nth_overflow by (rewrite map_length; lia). reflexivity.
Qed.

Lemma qsum_half l : (qsum (map (fun x => x / 2)%Q l) == qsum l / 2)%Q.
Proof. induction l as [|a l IH]; [reflexivity|]. cbn [map]. rewrite !qsum_cons, IH. field. Qed.

(** The total charge is the sum, the total volume the average of the two systems. *)
Theorem C48_sum : exists c v, merge_results near up down c_up v_up c_down v_down = Done (c, v) /\
  (qsum c == qsum c_up + qsum c_down)%Q /\ (qsum v == (qsum v_up + qsum v_down) / 2)%Q.
Proof.
  rewrite results_one. do 2 eexists. split; [reflexivity|]. rewrite qsum_half, !one_sum by lia. rewrite !combine_snd by lia. split; reflexivity.
Qed.

Variables c v : list Q.
Hypothesis OK : merge_results near up down c_up v_up c_down v_down = Done (c, v).

Lemma ok_c : c = one near up (combine down c_down) c_up.
Proof. rewrite results_one in OK. now injection OK. Qed.
Lemma ok_v : v = map (fun x => x / 2)%Q (one near up (combine down v_down) v_up).
Proof. rewrite results_one in OK. now injection OK. Qed.

Lemma home_sum i amounts (p : nat -> bool) : List.length amounts = List.length down ->
  (forall j, (j < List.length down)%nat -> p j = true <-> first_match near up (at_ down j) i) ->
  (qsum_if snd (is_home near up i) (combine down amounts) == qsum_if (val amounts) p (seq 0 (List.length down)))%Q.
Proof.
  intros H P. rewrite (combine_seq nosite 0%Q) by lia. unfold qsum_if. rewrite map_map. apply qsum_map_ext. intros j J. apply in_seq in J.
  unfold is_home. cbn [fst snd]. specialize (P j ltac:(lia)). fold (at_ down j). fold (val amounts j). rewrite <- index_first in P.
  destruct (index near up (at_ down j)) as [k|].
  - destruct (Nat.eqb_spec k i) as [->|N].
    + replace (p j) with true; [reflexivity|]. symmetry. now apply P.
    + destruct (p j); [|reflexivity]. destruct P as [P _]. specialize (P eq_refl). congruence.
  - destruct (p j); [|reflexivity]. destruct P as [P _]. specialize (P eq_refl). discriminate.
Qed.

(** A site of the first system gets its own amounts and those of the sites of the second system
    whose first equal it is. *)
Theorem C48_shared i (p : nat -> bool) : (i < List.length up)%nat ->
  (forall j, (j < List.length down)%nat -> p j = true <-> first_match near up (at_ down j) i) ->
  (val c i == val c_up i + qsum_if (val c_down) p (seq 0 (List.length down)))%Q /\
  (val v i == (val v_up i + qsum_if (val v_down) p (seq 0 (List.length down))) / 2)%Q.
Proof.
  intros Hi P. rewrite ok_c, ok_v, val_half. unfold val at 1 4. rewrite !one_old by lia.
  rewrite (home_sum i c_down p), (home_sum i v_down p) by assumption. split; reflexivity.
Qed.

Lemma filter_count (f : site -> bool) (amounts : list Q) (q : nat -> bool) : List.length amounts = List.length down ->
  (forall j, (j < List.length down)%nat -> q j = f (at_ down j)) ->
  filter (fun d => f (fst d)) (combine down amounts) = map (fun j => (at_ down j, val amounts j)) (filter q (seq 0 (List.length down))).
Proof.
  intros H Q. rewrite (combine_seq nosite 0%Q) by lia. assert (G : forall l, (forall j, In j l -> (j < List.length down)%nat) ->
    filter (fun d => f (fst d)) (map (fun j => (nth j down nosite, nth j amounts 0%Q)) l) = map (fun j => (at_ down j, val amounts j)) (filter q l)).
  { induction l as [|j l IH]; intros L; [reflexivity|]. cbn [map filter fst]. rewrite (Q j) by (apply L; now left). fold (at_ down j).
    rewrite IH by (intros; apply L; now right). destruct (f (at_ down j)); reflexivity. }
  apply G. intros j J. apply in_seq in J. lia.
Qed.

Lemma contains_unmatched s x : contains near s x = false <-> unmatched near s x.
Proof.
  split.
  - intros H w W. destruct (site_eqb near w x) eqn:E; [|reflexivity]. assert (contains near s x = true) by (apply contains_in; eauto). congruence.
  - intros H. destruct (contains near s x) eqn:E; [|reflexivity]. apply contains_in in E as (w & W & F). rewrite H in F by exact W. discriminate.
Qed.

(** The sites of the second system without equal follow, in their order. *)
Theorem C48_alone (q : nat -> bool) j : (forall k, (k < List.length down)%nat -> q k = true <-> unmatched near up (at_ down k)) ->
  List.length c = (List.length up + List.length (filter q (seq 0 (List.length down))))%nat /\ List.length v = List.length c /\
  ((j < List.length down)%nat -> q j = true ->
   let m := (List.length up + List.length (filter q (seq 0 j)))%nat in
   (m < List.length c)%nat /\ (val c m == val c_down j)%Q /\ (val v m == val v_down j / 2)%Q).
Proof.
  intros Q. assert (Q' : forall k, (k < List.length down)%nat -> q k = negb (contains near up (at_ down k))).
  { intros k K. specialize (Q k K). rewrite <- contains_unmatched in Q. destruct (q k), (contains near up (at_ down k)); cbn; auto; destruct Q; intuition congruence. }
  assert (LC : forall amounts, List.length amounts = List.length down -> alone near up (combine down amounts) = map (fun k => (at_ down k, val amounts k)) (filter q (seq 0 (List.length down)))).
  { intros amounts A. apply (filter_count (fun x => negb (contains near up x))); assumption. }
  rewrite ok_c, ok_v, map_length, !one_length, !LC by assumption. rewrite !map_length. split; [lia|]. split; [lia|].
  intros Hj E m. destruct (filter_nth q j _ Hj E) as [L N]. split; [unfold m; lia|]. rewrite val_half. unfold m, val at 1 3. rewrite <- HC at 1. rewrite <- HV.
  assert (LA : forall amounts, List.length amounts = List.length down -> List.length (alone near up (combine down amounts)) = List.length (filter q (seq 0 (List.length down)))).
  { intros amounts A. now rewrite LC, map_length. }
  rewrite !one_new by (rewrite ?LA; lia). rewrite !LC by assumption. rewrite !map_map. cbn [snd].
  assert (G : forall amounts, nth (List.length (filter q (seq 0 j))) (map (fun x => val amounts x) (filter q (seq 0 (List.length down)))) 0%Q = val amounts j).
  { intros amounts. rewrite (nth_indep _ 0%Q (val amounts O)) by (rewrite map_length; exact L). rewrite (map_nth (val amounts)). now rewrite N. }
  rewrite !G. split; reflexivity.
Qed.
End Systems.

(** ** Structures *)
(** Values of [FEATURE_DUMMY_ATOMS]. *)
Definition dummies : list text := [lit "X"; lit "Xs"; lit "Xds"; lit "Xc"; lit "Z"; lit "M"; lit "Lp"; lit "Zm"; lit "E"].
Definition is_atom (x : site) : Prop := fst x <> lit "E" /\ fst x <> lit "Exu" /\ fst x <> lit "Exd".

Lemma mem_in s l : mem s l = true <-> In s l.
Proof.
  unfold mem. rewrite existsb_exists. split.
  - intros (x & H & E). apply text_eqb_spec in E. now subst.
  - intros H. exists s. split; [exact H|]. now apply text_eqb_spec.
Qed.

Definition bare (x : site) : bool := text_eqb (fst x) (lit "E").
Lemma mem_bare x : mem (fst x) bare_species = bare x.
Proof. unfold mem, bare, bare_species. cbn [existsb]. destruct (text_eqb (fst x) (lit "E")); reflexivity. Qed.

Lemma bare_map l : map (fun x : site => (lit "E", snd x)) (filter bare l) = filter bare l.
Proof.
  induction l as [|x l IH]; [reflexivity|]. cbn [filter]. destruct (bare x) eqn:E; [|exact IH]. cbn [map]. rewrite IH. f_equal.
  apply text_eqb_spec in E. destruct x as [s p]. cbn in *. now subst.
Qed.

Lemma filter_none {A} (f : A -> bool) l : (forall x, In x l -> f x = false) -> filter f l = [].
Proof. induction l as [|x l IH]; intros H; [reflexivity|]. cbn. rewrite (H x) by now left. apply IH. intros; apply H. now right. Qed.

Lemma electrides_eq atoms f : Forall is_atom atoms -> electrides atoms (atoms ++ f) = atoms ++ filter bare f.
Proof.
  intros A. unfold electrides. f_equal. rewrite (filter_ext _ bare) by (intros; apply mem_bare). rewrite bare_map, filter_app.
  rewrite (filter_none bare atoms); [reflexivity|]. intros x X. rewrite Forall_forall in A. destruct (A x X) as [N _].
  unfold bare. destruct (text_eqb (fst x) (lit "E")) eqn:E; [|reflexivity]. now apply text_eqb_spec in E.
Qed.

Lemma contains_app s t x : contains near (s ++ t) x = contains near s x || contains near t x.
Proof. apply existsb_app. Qed.

Lemma contains_bare l x : bare x = true -> contains near (filter bare l) x = contains near l x.
Proof.
  intros B. induction l as [|y l IH]; [reflexivity|]. cbn [filter SpinModel.contains existsb]. fold (contains near l x). rewrite <- IH. destruct (bare y) eqn:E; [reflexivity|].
  replace (site_eqb near y x) with false; [reflexivity|]. unfold site_eqb. apply text_eqb_spec in B. rewrite B. unfold bare in E. now rewrite E.
Qed.

Lemma skipn_app_len {A} (l m : list A) : skipn (List.length l) (l ++ m) = m.
Proof. rewrite skipn_app, skipn_all, Nat.sub_diag. reflexivity. Qed.

Lemma all_bare_eq s : mem s all_bare_species = true <-> s = lit "E" \/ s = lit "Exu" \/ s = lit "Exd".
Proof. rewrite mem_in. cbn. firstorder congruence. Qed.

Lemma dummy_mark s t : In s dummies -> (t = "xu" \/ t = "xd")%string -> mem (s ++ lit t) all_bare_species = text_eqb s (lit "E").
Proof. intros H T. cbn in H. destruct T as [->| ->]; repeat (destruct H as [<-|H]; [vm_compute; reflexivity|]); destruct H. Qed.
Lemma dummy_plain s : In s dummies -> mem s all_bare_species = text_eqb s (lit "E").
Proof. intros H. cbn in H. repeat (destruct H as [<-|H]; [vm_compute; reflexivity|]); destruct H. Qed.

Lemma filter_map_comm {A B} (f : A -> B) (p : B -> bool) (q : A -> bool) l : (forall x, In x l -> p (f x) = q x) ->
  filter p (map f l) = map f (filter q l).
Proof. induction l as [|x l IH]; intros H; [reflexivity|]. cbn. rewrite (H x) by now left. rewrite IH by (intros; apply H; now right). destruct (q x); reflexivity. Qed.

Lemma filter_swap {A} (p q : A -> bool) l : filter p (filter q l) = filter q (filter p l).
Proof. induction l as [|x l IH]; [reflexivity|]. cbn. destruct (p x) eqn:P, (q x) eqn:E; cbn; rewrite ?P, ?E, IH; reflexivity. Qed.

(** Merging labelled structures and then picking the electrides gives the merged electride structures. *)
Theorem C48_routes atoms fu fd : Forall is_atom atoms -> Forall (fun x => In (fst x) dummies) (fu ++ fd) ->
  spin_electrides atoms (merge_structures near atoms (atoms ++ fu) (atoms ++ fd)) =
  merge_structures near atoms (electrides atoms (atoms ++ fu)) (electrides atoms (atoms ++ fd)).
Proof.
  intros A D. rewrite !electrides_eq by exact A. unfold spin_electrides, merge_structures. rewrite !skipn_app_len. f_equal.
  rewrite !filter_app. rewrite (filter_none _ atoms).
  2: { intros x X. rewrite Forall_forall in A. destruct (A x X) as (N1 & N2 & N3). destruct (mem (fst x) all_bare_species) eqn:E; [|reflexivity].
       apply all_bare_eq in E. intuition. }
  rewrite Forall_forall in D. cbn [app]. f_equal.
  - rewrite (filter_map_comm _ _ bare).
    + apply map_ext_in. intros x X. apply filter_In in X as [_ B]. rewrite !contains_app, contains_bare by exact B. reflexivity.
    + intros x X. specialize (D x ltac:(apply in_or_app; now left)). destruct (contains near (atoms ++ fd) x); [now apply dummy_plain|].
      apply dummy_mark; auto.
  - rewrite (filter_map_comm _ _ bare).
    + f_equal. rewrite filter_swap. apply filter_ext_in. intros x X. apply filter_In in X as [_ B]. rewrite !contains_app, contains_bare by exact B. reflexivity.
    + intros x X. apply filter_In in X as [X _]. specialize (D x ltac:(apply in_or_app; now right)). apply dummy_mark; auto.
Qed.

(** The names: a feature of the first system keeps its name if the second system has an equal one. *)
Theorem C48_names atoms fu fd i : (i < List.length fu)%nat ->
  (forall k, (k < List.length atoms)%nat -> at_ (merge_structures near atoms (atoms ++ fu) (atoms ++ fd)) k = at_ atoms k) /\
  ((exists w, In w (atoms ++ fd) /\ site_eqb near w (at_ fu i) = true) ->
     at_ (merge_structures near atoms (atoms ++ fu) (atoms ++ fd)) (List.length atoms + i) = at_ fu i) /\
  (unmatched near (atoms ++ fd) (at_ fu i) ->
     at_ (merge_structures near atoms (atoms ++ fu) (atoms ++ fd)) (List.length atoms + i) = (fst (at_ fu i) ++ lit "xu", snd (at_ fu i))).
Proof.
  intros Hi. unfold merge_structures, at_. rewrite !skipn_app_len. split; [intros k K; now rewrite app_nth1|].
  rewrite app_nth2 by lia. replace (List.length atoms + i - List.length atoms)%nat with i by lia. rewrite app_nth1 by (rewrite map_length; exact Hi).
  set (f := fun x => if contains near (atoms ++ fd) x then x else mark "xu" x). rewrite (nth_indep (map f fu) nosite (f nosite)) by (rewrite map_length; exact Hi).
  rewrite map_nth. unfold f. split.
  - intros H. apply contains_in in H. unfold at_ in H. now rewrite H.
  - intros H. apply contains_unmatched in H. unfold at_ in H. now rewrite H.
Qed.

Lemma filter_at f down (q : nat -> bool) : (forall j, (j < List.length down)%nat -> q j = f (at_ down j)) ->
  filter f down = map (at_ down) (filter q (seq 0 (List.length down))).
Proof.
  intros Q. assert (E : down = map (at_ down) (seq 0 (List.length down))).
  { clear. unfold at_. induction down as [|x l IH]; [reflexivity|]. cbn [List.length seq map nth]. rewrite <- seq_shift, map_map. now f_equal. }
  rewrite E at 1. apply filter_map_comm. intros j J. apply in_seq in J. symmetry. apply Q. lia.
Qed.

(** The merged electride structure lists the sites in the order of the merged charges. *)
Theorem C48_aligned atoms fu fd (q : nat -> bool) j :
  (forall p, near p p = true) -> Forall is_atom atoms -> Forall (fun x => In (fst x) dummies) (fu ++ fd) ->
  let up := electrides atoms (atoms ++ fu) in let down := electrides atoms (atoms ++ fd) in
  let merged := spin_electrides atoms (merge_structures near atoms (atoms ++ fu) (atoms ++ fd)) in
  (forall k, (k < List.length down)%nat -> q k = true <-> unmatched near up (at_ down k)) ->
  List.length merged = (List.length up + List.length (filter q (seq 0 (List.length down))))%nat /\
  (forall i, (i < List.length up)%nat -> snd (at_ merged i) = snd (at_ up i)) /\
  ((j < List.length down)%nat -> q j = true ->
   at_ merged (List.length up + List.length (filter q (seq 0 j))) = (fst (at_ down j) ++ lit "xd", snd (at_ down j))).
Proof.
  intros R A D up down merged Q. unfold merged. rewrite C48_routes by assumption. fold up down.
  assert (EU : up = atoms ++ filter bare fu) by (now apply electrides_eq). assert (ED : down = atoms ++ filter bare fd) by (now apply electrides_eq).
  assert (F : filter (fun x => negb (contains near up x)) (skipn (List.length atoms) down) = map (at_ down) (filter q (seq 0 (List.length down)))).
  { rewrite <- (filter_at (fun x => negb (contains near up x))).
    - rewrite ED. rewrite skipn_app_len, filter_app. rewrite (filter_none _ atoms); [reflexivity|]. intros x X.
      replace (contains near up x) with true; [reflexivity|]. symmetry. apply contains_in. exists x. split; [rewrite EU; apply in_or_app; now left|].
      unfold site_eqb. rewrite R. rewrite (proj2 (text_eqb_spec (fst x) (fst x)) eq_refl). reflexivity.
    - intros k K. specialize (Q k K). rewrite <- contains_unmatched in Q. destruct (q k), (contains near up (at_ down k)); cbn; auto; destruct Q; intuition congruence. }
  unfold merge_structures. rewrite F. assert (SU : skipn (List.length atoms) up = filter bare fu) by (rewrite EU; apply skipn_app_len). rewrite SU.
  assert (LU : List.length up = (List.length atoms + List.length (filter bare fu))%nat) by (rewrite EU; apply app_length).
  split; [rewrite !app_length, !map_length; lia|]. split.
  - intros i Hi. unfold at_. rewrite EU. destruct (Nat.ltb_spec i (List.length atoms)) as [L|L].
    + now rewrite !app_nth1.
    + rewrite !(app_nth2 atoms) by lia. rewrite app_nth1 by (rewrite map_length; lia).
      set (f := fun x => if contains near down x then x else mark "xu" x). rewrite (nth_indep (map f (filter bare fu)) nosite (f nosite)) by (rewrite map_length; lia). rewrite map_nth.
      unfold f. destruct (contains near down _); reflexivity.
  - intros Hj E. destruct (filter_nth q j _ Hj E) as [L N]. unfold at_ at 1. rewrite app_assoc. rewrite app_nth2 by (rewrite app_length, map_length; lia).
    rewrite app_length, map_length, <- LU. replace (List.length up + List.length (filter q (seq 0 j)) - List.length up)%nat with (List.length (filter q (seq 0 j))) by lia.
    rewrite map_map. rewrite (nth_indep _ nosite (mark "xd" (at_ down O))) by (rewrite map_length; exact L). rewrite (map_nth (fun x => mark "xd" (at_ down x))).
    rewrite N. reflexivity.
Qed.

(** ** Atoms and electrides *)
Section Sites.
Variables (atoms eu ed : list site) (c_up v_up c_down v_down c v : list Q).
Hypothesis HC : List.length c_up = List.length (atoms ++ eu).
Hypothesis HV : List.length v_up = List.length (atoms ++ eu).
Hypothesis DC : List.length c_down = List.length (atoms ++ ed).
Hypothesis DV : List.length v_down = List.length (atoms ++ ed).
Hypothesis OK : merge_results near (atoms ++ eu) (atoms ++ ed) c_up v_up c_down v_down = Done (c, v).
Hypothesis APART : forall i k, (i < List.length atoms)%nat -> (k < List.length atoms)%nat ->
  site_eqb near (at_ atoms i) (at_ atoms k) = true <-> i = k.
Hypothesis OTHER : forall x w, In x ed -> In w atoms -> site_eqb near w x = false.

Lemma qsum_if_one f i n : (i < n)%nat -> (qsum_if f (fun j => Nat.eqb j i) (seq 0 n) == f i)%Q.
Proof.
  intros H. replace n with (i + S (n - S i))%nat by lia. unfold qsum_if. rewrite seq_app, map_app, qsum_app. cbn [seq map Nat.add]. rewrite qsum_cons, Nat.eqb_refl.
  assert (Z : forall l, (forall j, In j l -> j <> i) -> (qsum (map (fun x => if Nat.eqb x i then f x else 0%Q) l) == 0)%Q).
  { intros l L. rewrite <- (qsum_map_zero l). apply qsum_map_ext. intros j J. destruct (Nat.eqb_spec j i); [now apply L in J|reflexivity]. }
  rewrite !Z; [ring| |]; intros j J; apply in_seq in J; lia.
Qed.

(** Every atom gets the sum of its two charges and the average of its two volumes. *)
Theorem C48_atoms i : (i < List.length atoms)%nat ->
  (val c i == val c_up i + val c_down i)%Q /\ (val v i == (val v_up i + val v_down i) / 2)%Q.
Proof.
  intros Hi. assert (Li : (i < List.length (atoms ++ eu))%nat) by (rewrite app_length; lia). assert (Ld : (i < List.length (atoms ++ ed))%nat) by (rewrite app_length; lia).
  destruct (C48_shared (atoms ++ eu) (atoms ++ ed) c_up v_up c_down v_down HC HV DC DV c v OK i (fun j => Nat.eqb j i) Li) as [A B].
  - intros j Hj. rewrite Nat.eqb_eq. assert (EI : forall d, nth i (atoms ++ eu) d = at_ atoms i) by (intros d; rewrite app_nth1 by exact Hi; now apply nth_indep). split.
    + intros ->. unfold first_match. rewrite EI. split; [exact Li|]. replace (at_ (atoms ++ ed) i) with (at_ atoms i) by (unfold at_; now rewrite app_nth1).
      split; [now apply APART|]. intros k K. rewrite app_nth1 by lia. rewrite (nth_indep _ _ nosite) by lia. fold (at_ atoms k).
      destruct (site_eqb near (at_ atoms k) (at_ atoms i)) eqn:E; [|reflexivity]. apply APART in E; lia.
    + intros (_ & M & _). rewrite EI in M. destruct (Nat.ltb_spec j (List.length atoms)) as [L|L].
      * replace (at_ (atoms ++ ed) j) with (at_ atoms j) in M by (unfold at_; now rewrite app_nth1). apply APART in M; lia.
      * rewrite OTHER in M; [discriminate| |unfold at_; now apply nth_In]. unfold at_. rewrite app_nth2 by exact L. apply nth_In. rewrite app_length in Hj. lia.
  - rewrite !qsum_if_one in A, B by exact Ld. split; assumption.
Qed.

Lemma qsum_firstn l n : (n <= List.length l)%nat -> (qsum (firstn n l) == qsum (map (val l) (seq 0 n)))%Q.
Proof.
  revert n. induction l as [|a l IH]; intros [|n] H; cbn in H; try lia; try reflexivity. cbn [firstn seq map]. rewrite !qsum_cons, IH by lia.
  rewrite <- seq_shift, map_map. reflexivity.
Qed.

Lemma qsum_skipn l n m : (n <= List.length l)%nat -> m = (List.length l - n)%nat -> (qsum (map (fun i => nth i l 0%Q) (seq n m)) == qsum (skipn n l))%Q.
Proof.
  revert n m. induction l as [|a l IH]; intros n m H ->.
  - cbn in H. replace n with O by lia. reflexivity.
  - destruct n as [|n].
    + cbn [skipn List.length Nat.sub seq map nth]. rewrite !qsum_cons. rewrite <- seq_shift, map_map. cbn [nth]. rewrite (IH O) by lia. reflexivity.
    + cbn [skipn List.length Nat.sub]. rewrite <- seq_shift, map_map. cbn [nth]. apply IH; cbn in H; lia.
Qed.

(** The electrides hold the sum of what they hold in the two systems. *)
Theorem C48_electrides merged : List.length merged = List.length c ->
  (electrides_per_formula (List.length atoms) merged c == qsum (skipn (List.length atoms) c_up) + qsum (skipn (List.length atoms) c_down))%Q.
Proof.
  intros LM. unfold electrides_per_formula. rewrite LM. assert (LC : (List.length atoms <= List.length c)%nat).
  { rewrite (ok_c _ _ _ _ _ _ HC HV DC DV c v OK), one_length, HC, app_length. lia. }
  rewrite qsum_skipn by (auto; lia).
  destruct (C48_sum (atoms ++ eu) (atoms ++ ed) c_up v_up c_down v_down HC HV DC DV) as (c' & v' & E & S & _). rewrite OK in E. injection E as <- <-.
  rewrite <- (firstn_skipn (List.length atoms) c), <- (firstn_skipn (List.length atoms) c_up), <- (firstn_skipn (List.length atoms) c_down), !qsum_app in S.
  pose proof HC as HC'. pose proof DC as DC'. rewrite app_length in HC', DC'.
  rewrite !qsum_firstn in S by lia.
  assert (F : (qsum (map (val c) (seq 0 (List.length atoms))) == qsum (map (val c_up) (seq 0 (List.length atoms))) + qsum (map (val c_down) (seq 0 (List.length atoms))))%Q).
  { rewrite <- qsum_map_plus. apply qsum_map_ext. intros i I. apply in_seq in I. apply C48_atoms. lia. }
  lra.
Qed.
End Sites.

(** Equal systems: charges are doubled, volumes are kept. *)
Theorem C48_equal up c_up v_up c v : List.length c_up = List.length up -> List.length v_up = List.length up ->
  (forall i k, (i < List.length up)%nat -> (k < List.length up)%nat -> site_eqb near (at_ up i) (at_ up k) = true <-> i = k) ->
  merge_results near up up c_up v_up c_up v_up = Done (c, v) ->
  List.length c = List.length up /\ List.length v = List.length up /\
  forall i, (i < List.length up)%nat -> (val c i == 2 * val c_up i)%Q /\ (val v i == val v_up i)%Q.
Proof.
  intros HC HV AP OK. destruct (C48_alone up up c_up v_up c_up v_up HC HV HC HV c v OK (fun _ => false) O) as (LC & LV & _).
  { intros k K. split; [discriminate|]. intros U. specialize (U (at_ up k)). rewrite (proj2 (AP k k K K) eq_refl) in U. discriminate U. unfold at_. now apply nth_In. }
  rewrite (filter_none (fun _ => false)) in LC by reflexivity. rewrite Nat.add_0_r in LC. split; [exact LC|]. split; [lia|]. intros i Hi.
  rewrite <- (app_nil_r up) in HC, HV. rewrite <- (app_nil_r up) in OK at 1 2.
  destruct (C48_atoms up [] [] c_up v_up c_up v_up c v HC HV HC HV OK AP (fun x w (h : In x []) => match h with end) i Hi) as [A B].
  split; [rewrite A; ring|rewrite B; field].
Qed.

(** Reported numbers: the rounding of each entry. *)
Theorem C48_rounded l : (Qabs (qsum (map round10 l) - qsum l) <= inject_Z (Z.of_nat (List.length l)) * (1 # 20000000000))%Q.
Proof.
  assert (R : forall x, (Qabs (round10 x - x) <= 1 # 20000000000)%Q).
  { intros x. unfold round10. pose proof (py_round_spec (x * inject_Z (10 ^ 10))) as [[A B] _]. set (n := inject_Z (py_round (x * inject_Z (10 ^ 10)))) in *.
    change (inject_Z (10 ^ 10)) with (10000000000 # 1)%Q in *. assert (E : (n / (10000000000 # 1) - x == (n - x * (10000000000 # 1)) * (1 # 10000000000))%Q) by (field; discriminate).
    rewrite E. apply Qabs_Qle_condition. split; lra. }
  induction l as [|x l IH]; [cbn; discriminate|]. cbn [map List.length]. rewrite !qsum_cons, Nat2Z.inj_succ. unfold Z.succ. rewrite inject_Z_plus.
  assert (E : (round10 x + qsum (map round10 l) - (x + qsum l) == (round10 x - x) + (qsum (map round10 l) - qsum l))%Q) by ring. rewrite E.
  eapply Qle_trans; [apply Qabs_triangle|]. specialize (R x). change (inject_Z 1) with 1%Q. lra.
Qed.
End Props.

(** ** Whole runs *)
(** One run distributes exactly the charge of its grid. *)
Definition conserving (analyse : list Q -> list Q -> list site * (list Q * list Q)) : Prop := forall ref charge,
  let r := analyse ref charge in
  List.length (fst (snd r)) = List.length (fst r) /\ List.length (snd (snd r)) = List.length (fst r) /\ (qsum (fst (snd r)) == qsum charge)%Q.

Theorem C48_total near analyse ref_up ref_down charge_up charge_down : conserving analyse ->
  (exists i, (i < List.length ref_up)%nat /\ (i < List.length ref_down)%nat /\ (1 # 10000 < Qabs (val ref_up i - val ref_down i))%Q) \/
  (qsum charge_up == qsum charge_down)%Q ->
  exists c v, spin_results near analyse ref_up ref_down charge_up charge_down = Done (c, v) /\
    (qsum c == qsum charge_up + qsum charge_down)%Q.
Proof.
  intros K H. unfold spin_results. destruct (K ref_up charge_up) as (A1 & A2 & A3).
  destruct (allclose (1 # 10000) ref_up ref_down) eqn:E.
  - destruct (C48_sum near _ _ _ _ _ _ A1 A2 A1 A2) as (c & v & R & S & _). exists c, v. split; [exact R|]. rewrite S, A3.
    destruct H as [(i & L1 & L2 & D)|H]; [|rewrite H; ring]. exfalso.
    unfold allclose in E. rewrite forallb_forall in E. specialize (E (val ref_up i, val ref_down i)). cbv beta iota in E.
    assert (I : In (val ref_up i, val ref_down i) (combine ref_up ref_down)).
    { unfold val. clear - L1 L2. revert i ref_down L1 L2. induction ref_up as [|a l IH]; intros [|i] [|b m] L1 L2; cbn in *; try lia; auto. right. apply IH; lia. }
    specialize (E I). apply Qle_bool_iff in E. apply (Qlt_not_le _ _ D). exact E.
  - destruct (K ref_down charge_down) as (B1 & B2 & B3).
    destruct (C48_sum near _ _ _ _ _ _ A1 A2 B1 B2) as (c & v & R & S & _). exists c, v. split; [exact R|]. rewrite S, A3, B3. reflexivity.
Qed.

(** The reported total is the sum of the reported charges, and that of the two runs; one run counts twice exactly when
    the reference grids agree to 1e-4. *)
Theorem C48_total_listed near analyse ref_up ref_down charge_up charge_down : conserving analyse -> List.length ref_up = List.length ref_down ->
  let total := spin_total analyse ref_up ref_down charge_up charge_down in
  (exists c v, spin_results near analyse ref_up ref_down charge_up charge_down = Done (c, v) /\ (total == qsum c)%Q) /\
  ((exists i, (i < List.length ref_up)%nat /\ (1 # 10000 < Qabs (val ref_up i - val ref_down i))%Q) ->
     (total == qsum charge_up + qsum charge_down)%Q) /\
  ((forall i, (i < List.length ref_up)%nat -> (Qabs (val ref_up i - val ref_down i) <= 1 # 10000)%Q) -> (total == 2 * qsum charge_up)%Q).
Proof.
  intros K L total. unfold total, spin_total, spin_results. destruct (K ref_up charge_up) as (A1 & A2 & A3). destruct (K ref_down charge_down) as (B1 & B2 & B3).
  assert (AC : allclose (1 # 10000) ref_up ref_down = true <-> forall i, (i < List.length ref_up)%nat -> (Qabs (val ref_up i - val ref_down i) <= 1 # 10000)%Q).
  { clear - L. unfold allclose, val. revert ref_down L. induction ref_up as [|a l IH]; intros [|b m] L; try discriminate; [split; [intros _ i I; inversion I|reflexivity]|].
    cbn [combine forallb]. rewrite andb_true_iff, (IH m) by (injection L; auto). rewrite Qle_bool_iff. split.
    - intros [H1 H2] [|i] I; cbn [nth]; [exact H1|]. apply H2. cbn in I. lia.
    - intros H. split; [exact (H 0%nat ltac:(cbn; lia))|]. intros i I. exact (H (S i) ltac:(cbn; lia)). }
  split; [|split].
  - destruct (allclose (1 # 10000) ref_up ref_down).
    + destruct (C48_sum near _ _ _ _ _ _ A1 A2 A1 A2) as (c & v & R & S & _). exists c, v. split; [exact R|]. rewrite S. reflexivity.
    + destruct (C48_sum near _ _ _ _ _ _ A1 A2 B1 B2) as (c & v & R & S & _). exists c, v. split; [exact R|]. rewrite S. reflexivity.
  - intros (i & I & D). destruct (allclose (1 # 10000) ref_up ref_down); [|rewrite A3, B3; reflexivity].
    exfalso. apply (Qlt_not_le _ _ D). now apply AC.
  - intro H. rewrite (proj2 AC H). rewrite A3. ring.
Qed.
Print Assumptions C48_total_listed.

(** If the two reference grids agree to 1e-4, the spin-down charge is never looked at. *)
Theorem C121_equal_spin_refuted : exists ref_up ref_down charge_up charge_down,
  List.length ref_up = List.length ref_down /\ List.length charge_up = List.length charge_down /\ List.length charge_up = List.length ref_up /\
  forall near analyse, conserving analyse ->
  exists c v, spin_results near analyse ref_up ref_down charge_up charge_down = Done (c, v) /\
    ~ (qsum c == qsum charge_up + qsum charge_down)%Q.
Proof.
  exists [1 # 2; 1 # 3]%Q, [1 # 2; 1 # 3]%Q, [2; 1]%Q, [1; 1]%Q. do 3 (split; [reflexivity|]). intros near analyse K.
  unfold spin_results. replace (allclose (1 # 10000) [1 # 2; 1 # 3] [1 # 2; 1 # 3])%Q with true by reflexivity.
  destruct (K [1 # 2; 1 # 3]%Q [2; 1]%Q) as (A1 & A2 & A3). destruct (C48_sum near _ _ _ _ _ _ A1 A2 A1 A2) as (c & v & R & S & _).
  exists c, v. split; [exact R|]. rewrite S, A3. cbn. intros H. discriminate.
Qed.
Print Assumptions C48_sum.
Print Assumptions C48_shared.
Print Assumptions C48_alone.
Print Assumptions C48_routes.
Print Assumptions C48_names.
Print Assumptions C48_aligned.
Print Assumptions C48_atoms.
Print Assumptions C48_electrides.
Print Assumptions C48_equal.
Print Assumptions C48_rounded.
Print Assumptions C48_total.
Print Assumptions C121_equal_spin_refuted.

(** ** Examples *)
Definition close1 (a b : Q) : bool := Qle_bool (Qabs (a - b)) ((1 # 100000) + (1 # 100000) * Qabs b).
Definition allclose3 (a b : vec) : bool := let '(x, y, z) := a in let '(x', y', z') := b in close1 x x' && close1 y y' && close1 z z'.

Definition ex_atoms : list site := [(lit "Ca", (0, 0, 0)%Q); (lit "N", (2, 2, 2)%Q)].
Definition ex_up : list site := [(lit "E", (1, 1, 1)%Q); (lit "Z", (1, 0, 0)%Q)].
Definition ex_down : list site := [(lit "M", (0, 1, 0)%Q); (lit "E", (3, 1, 1)%Q); (lit "E", (1000001 # 1000000, 1, 1)%Q)].

Example merged_names :
  map fst (spin_electrides ex_atoms (merge_structures allclose3 ex_atoms (ex_atoms ++ ex_up) (ex_atoms ++ ex_down))) = [lit "Ca"; lit "N"; lit "E"; lit "Exd"].
Proof. vm_compute. reflexivity. Qed.

Example merged_charges :
  merge_results allclose3 (electrides ex_atoms (ex_atoms ++ ex_up)) (electrides ex_atoms (ex_atoms ++ ex_down))
    [8; 4; 1]%Q [3; 2; 1]%Q [7; 4; 1 # 2; 1]%Q [3; 1; 1; 1]%Q = Done ([15; 8; 2; 1 # 2]%Q, [6 / 2; 3 / 2; 2 / 2; 1 / 2]%Q).
Proof. vm_compute. reflexivity. Qed.

Example conserving_example : conserving (fun _ charge => ([(lit "H", (0, 0, 0)%Q)], ([qsum charge], [1%Q]))).
Proof. intros ref charge. cbn. repeat split. apply Qplus_0_r. Qed.

Example total_example : spin_total (fun _ charge => ([(lit "H", (0, 0, 0)%Q)], ([qsum charge], [1%Q]))) [1 # 2]%Q [1 # 3]%Q [2; 1]%Q [1; 1]%Q = 5%Q.
Proof. vm_compute. reflexivity. Qed.
