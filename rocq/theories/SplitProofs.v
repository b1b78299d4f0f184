(** Splitting domains: the steps of the loop. *)
From Coq Require Import QArith Lqa Sorted.
From Verif Require Import Base GridModel NeighModel RootsModel UnionModel SplitModel SplitSpec.
Local Open Scope Z_scope.

Lemma nth_error_snoc {A} (l : list A) x i y : nth_error (l ++ [x]) i = Some y <-> nth_error l i = Some y \/ (i = length l /\ y = x).
Proof.
  destruct (lt_eq_lt_dec i (length l)) as [[L|L]|L].
  - rewrite nth_error_app1 by exact L. split; [auto|intros [H|[H _]]; [exact H|lia]].
  - subst. rewrite nth_error_app2, Nat.sub_diag by lia. cbn. split; [intros H; injection H as ->; auto|]. intros [H|[_ ->]]; [|reflexivity]. assert (K : nth_error l (length l) = None) by now apply nth_error_None. congruence.
  - rewrite nth_error_app2 by lia. destruct (i - length l)%nat as [|r] eqn:E; [lia|]. cbn. assert (K : nth_error l i = None) by (apply nth_error_None; lia). destruct r; cbn; (split; [discriminate|intros [H|[H _]]; [congruence|lia]]).
Qed.
Lemma nth_error_len {A} (l : list A) i x : nth_error l i = Some x -> (i < length l)%nat.
Proof. intros H. apply nth_error_Some. congruence. Qed.

Section Split.
Variable doms : list domain.
Hypothesis TI : tight doms.

Definition mapped (n : news) (m : list Z) (origin : list nat) (d : nat) : Prop :=
  (nth d m (-1) = -1 /\ forall k, nth_error origin k <> Some d) \/
  (exists k, nth d m (-1) = Z.of_nat k /\ nth_error origin k = Some d /\ last_of origin d k).
Record core (n : news) (m : list Z) (origin : list nat) : Prop := Core {
  c_len : length origin = length n; c_map : length m = length doms;
  c_range : forall k d, nth_error origin k = Some d -> (d < length doms)%nat;
  c_chain : chained doms n origin;
  c_mapped : forall d, (d < length doms)%nat -> mapped n m origin d }.

Lemma version_snoc n origin x y d k E a : length origin = length n ->
  (version (n ++ [x]) (origin ++ [y]) d k E a <-> version n origin d k E a \/ (k = length n /\ d = y /\ x = (E, a))).
Proof.
  intros L. unfold version. rewrite !nth_error_snoc, L. split.
  - intros [[H|[H H']] [K|[K K']]]; [auto| | |right; auto]; [apply nth_error_len in H; lia|apply nth_error_len in K; lia].
  - intros [[H K]|(-> & -> & ->)]; auto.
Qed.
Lemma last_snoc origin y d k : y <> d -> last_of origin d k -> last_of (origin ++ [y]) d k.
Proof. intros N H j J. apply nth_error_snoc in J as [J|[_ J]]; [now apply H|congruence]. Qed.
Lemma version_exists n origin d k : length origin = length n -> nth_error origin k = Some d -> exists E a, version n origin d k E a.
Proof.
  intros L H. destruct (nth_error n k) as [[E a]|] eqn:K; [exists E, a; split; auto|]. apply nth_error_None in K. apply nth_error_len in H. lia.
Qed.
Lemma counted_snoc n origin x y s d : length origin = length n -> counted doms n origin s d -> counted doms (n ++ [x]) (origin ++ [y]) s d.
Proof.
  intros L C D H B1 B2. destruct (C D H B1 B2) as (k & E & a & V & R). exists k, E, a. split; [|exact R]. apply version_snoc; auto.
Qed.

(** A domain gets its first version. *)
Lemma keep_core n m origin d D v atoms : core n m origin -> nth_error doms d = Some D -> nth d m (-1) = -1 -> (v == m_min D)%Q ->
  (forall q, m_parent D = Z.of_nat q -> nth q m (-1) <> -1) ->
  exists E m', keep doms v atoms (n, m) d = Done (n ++ [(E, atoms)], m') /\ core (n ++ [(E, atoms)]) m' (origin ++ [d]) /\ m_min E = v /\ m_max E = m_max D /\
    m' = upd m d (Z.of_nat (length n)) /\ forall k, nth_error origin k <> Some d.
Proof.
  intros [CL CM CR CC CP] ED U V PM. pose proof (nth_error_len _ _ _ ED) as LD. assert (ND : nth d doms dm0 = D) by now apply nth_error_nth.
  assert (NO : forall k, nth_error origin k <> Some d). { destruct (CP d LD) as [[_ H]|(k & H & _)]; [exact H|lia]. }
  set (m' := upd m d (Z.of_nat (length n))).
  assert (PAR : exists p, (if m_parent D =? -1 then Done (-1) else oget (np_get m' (m_parent D))) = Done p /\
    ((m_parent D = -1 /\ p = -1) \/ exists q j F b, m_parent D = Z.of_nat q /\ version n origin q j F b /\ last_of origin q j /\ (j < length n)%nat /\ p = Z.of_nat j /\ (m_max F == v)%Q)).
  { destruct (TI d D ED) as [P|(q & P & Q0 & EP & QD & _ & MX)]; [rewrite P; cbn; exists (-1); split; [reflexivity|now left]|]. rewrite Q0. destruct (Z.eqb_spec (Z.of_nat q) (-1)); [lia|].
    pose proof (nth_error_len _ _ _ EP) as LQ. destruct (CP q LQ) as [[H _]|(j & H & OJ & LJ)]; [destruct (PM q Q0 H)|]. exists (Z.of_nat j). split.
    - unfold np_get. rewrite np_idx_pos by (unfold m'; rewrite upd_length, CM; lia). rewrite Nat2Z.id. unfold m'. rewrite (nth_error_nth_lt _ _ (-1)) by (rewrite upd_length, CM; exact LQ). rewrite nth_upd_other by lia. now rewrite H.
    - right. destruct (version_exists n origin q j CL OJ) as (F & b & VF). exists q, j, F, b. split; [reflexivity|]. split; [exact VF|]. split; [exact LJ|]. split; [apply nth_error_len in OJ; lia|]. split; [reflexivity|].
      destruct (CC q P j F b EP VF) as (_ & _ & MF & _ & _). rewrite (MF LJ), MX. now symmetry. }
  destruct PAR as (p & EP & PR). exists (Dm (m_basins D) v (m_max D) (m_dim D) p), m'. split; [unfold keep; rewrite ND; fold m'; now rewrite EP|]. split; [|auto].
  split.
  - now rewrite !app_length, CL.
  - unfold m'. now rewrite upd_length.
  - intros k d' H. apply nth_error_snoc in H as [H|[_ ->]]; [eauto|exact LD].
  - intros d' D' k E a ED' VE. apply version_snoc in VE as [VE|(-> & -> & EQ)]; [|injection EQ as <- <-|exact CL].
    + assert (DN : d <> d') by (intros ->; destruct VE as [_ VE]; now apply NO in VE). destruct (CC d' D' k E a ED' VE) as (B1 & B2 & B3 & B5 & B4). assert (KL : (k < length n)%nat) by (destruct VE as [VE _]; now apply nth_error_len in VE). do 2 (split; [assumption|]). split.
      { intros LO. apply B3. intros j J. apply LO. apply nth_error_snoc. auto. }
      split; [destruct B5 as [B5|B5]; [now left|right; now apply last_snoc]|].
      destruct B4 as [(j & F & b & VF & JK & NX & R)|(FI & MN & B4)].
      * left. exists j, F, b. split; [apply version_snoc; auto|]. split; [exact JK|]. split; [|exact R]. intros j' H L. apply nth_error_snoc in H as [H|[H _]]; [now apply NX|lia].
      * right. split; [intros j J; apply nth_error_snoc in J as [J|[_ J]]; [now apply FI|congruence]|]. split; [exact MN|]. destruct B4 as [B4|(q & p0 & F & b & Q1 & VF & LF & R)]; [now left|]. right. exists q, p0, F, b. split; [exact Q1|]. split; [apply version_snoc; auto|]. split; [|exact R]. apply last_snoc; [|exact LF]. intros ->. destruct VF as [_ VF]. now apply NO in VF.
    + rewrite ED in ED'. injection ED' as <-. cbn [m_basins m_dim m_max m_min m_parent]. do 2 (split; [reflexivity|]). split; [reflexivity|]. split; [right; intros j J; apply nth_error_snoc in J as [J|[J _]]; [now apply NO in J|lia]|]. right. split; [intros j J; apply nth_error_snoc in J as [J|[J _]]; [now apply NO in J|lia]|]. split; [exact V|].
      destruct PR as [PR|(q & j & F & b & Q1 & VF & LF & JL & -> & MX)]; [now left|]. right. exists q, j, F, b. split; [exact Q1|]. split; [apply version_snoc; auto|]. split; [|auto]. apply last_snoc; [|exact LF]. intros ->. destruct VF as [_ VF]. now apply NO in VF.
  - intros d' LD'. unfold m'. destruct (Nat.eq_dec d d') as [<-|N].
    + right. exists (length n). rewrite nth_upd_same by lia. split; [reflexivity|]. split; [apply nth_error_snoc; rewrite CL; auto|]. intros j J. apply nth_error_snoc in J as [J|[J _]]; [now apply NO in J|lia].
    + unfold mapped. rewrite nth_upd_other by exact N. destruct (CP d' LD') as [[H K]|(k & H & K & LK)].
      * left. split; [exact H|]. intros k J. apply nth_error_snoc in J as [J|[_ J]]; [now apply K in J|congruence].
      * right. exists k. split; [exact H|]. split; [apply nth_error_snoc; auto|now apply last_snoc].
Qed.

(** A domain gets another version; the last one ends. *)
Lemma cut_core n m origin d D v atoms k F b : core n m origin -> nth_error doms d = Some D -> version n origin d k F b -> last_of origin d k -> (m_min F < v)%Q ->
  (forall d' D', nth_error doms d' = Some D' -> m_parent D' = Z.of_nat d -> forall j, nth_error origin j <> Some d') ->
  nth d m (-1) = Z.of_nat k /\
  let E := Dm (m_basins D) v (m_max D) (m_dim D) (Z.of_nat k) in let n' := upd (n ++ [(E, atoms)]) k (with_max v F, b) in let m' := upd m d (Z.of_nat (length n)) in
  cut (n ++ [(E, atoms)]) (Z.of_nat k) v = Some n' /\ core n' m' (origin ++ [d]) /\
  (forall d' j G c, version n' (origin ++ [d]) d' j G c <-> (j <> k /\ version n origin d' j G c) \/ (j = k /\ d' = d /\ G = with_max v F /\ c = b) \/ (j = length n /\ d' = d /\ G = E /\ c = atoms)).
Proof.
  intros [CL CM CR CC CP] ED VF LF FV NC. pose proof (nth_error_len _ _ _ ED) as LD. assert (KL : (k < length n)%nat) by (destruct VF as [VF _]; now apply nth_error_len in VF).
  assert (MK : nth d m (-1) = Z.of_nat k). { destruct (CP d LD) as [[_ H]|(k' & H & OK & LK)]; [destruct VF as [_ VF]; now apply H in VF|]. rewrite H. f_equal. apply Nat.le_antisymm; [now apply LF|apply LK; now destruct VF]. }
  split; [exact MK|]. intros E n' m'.
  assert (VN : forall d' j G c, version n' (origin ++ [d]) d' j G c <-> (j <> k /\ version n origin d' j G c) \/ (j = k /\ d' = d /\ G = with_max v F /\ c = b) \/ (j = length n /\ d' = d /\ G = E /\ c = atoms)).
  { intros d' j G c. unfold version, n'. rewrite nth_error_upd. assert (LT : Nat.ltb k (length (n ++ [(E, atoms)])) = true) by (apply Nat.ltb_lt; rewrite app_length; lia). rewrite LT, andb_true_r. destruct (Nat.eqb_spec k j) as [<-|N].
    - split.
      + intros [H K]. injection H as <- <-. apply nth_error_snoc in K as [K|[K _]]; [|lia]. destruct VF as [_ VF]. rewrite VF in K. injection K as <-. right. left. auto.
      + intros [[H _]|[(_ & -> & -> & ->)|(H & _)]]; [congruence| |lia]. split; [reflexivity|]. apply nth_error_snoc. left. now destruct VF.
    - fold (version (n ++ [(E, atoms)]) (origin ++ [d]) d' j G c). rewrite version_snoc by exact CL. split.
      + intros [H|(H & K & L)]; [left; auto|injection L as <- <-; right; right; auto].
      + intros [[_ H]|[(H & _)|(H & -> & -> & ->)]]; [now left|congruence|right; auto]. }
  split.
  { unfold cut, np_get, np_set. rewrite np_idx_pos by (rewrite app_length; cbn; lia). rewrite Nat2Z.id. assert (H : nth_error (n ++ [(E, atoms)]) k = Some (F, b)) by (rewrite nth_error_app1 by exact KL; now destruct VF). rewrite H. reflexivity. }
  split; [|exact VN]. split.
  - unfold n'. rewrite upd_length, !app_length, CL. reflexivity.
  - unfold m'. now rewrite upd_length.
  - intros j d' H. apply nth_error_snoc in H as [H|[_ ->]]; [eauto|exact LD].
  - intros d' D' j G c ED' VG. apply VN in VG as [[JK VG]|[(-> & -> & -> & ->)|(-> & -> & -> & ->)]].
    + destruct (CC d' D' j G c ED' VG) as (B1 & B2 & B3 & B5 & B4). assert (JL : (j < length n)%nat) by (destruct VG as [VG _]; now apply nth_error_len in VG). do 2 (split; [assumption|]). split; [intros LO; apply B3; intros i I; apply LO; apply nth_error_snoc; auto|].
      split; [destruct B5 as [B5|B5]; [now left|]; destruct (Nat.eq_dec d d') as [<-|DN]; [exfalso; apply JK, Nat.le_antisymm; [apply LF; now destruct VG|apply B5; now destruct VF]|right; now apply last_snoc]|].
      destruct B4 as [(i & H & c' & VH & IJ & NX & R)|(FI & MN & B4)].
      * left. exists i, H, c'. split; [|split; [exact IJ|split; [intros i' I L; apply nth_error_snoc in I as [I|[I _]]; [now apply NX|lia]|exact R]]]. apply VN. left. split; [|exact VH]. intros ->. destruct VH as [_ VH], VF as [_ VF]. rewrite VF in VH. injection VH as <-. destruct VG as [_ VG]. apply LF in VG. lia.
      * right. split; [intros i I; apply nth_error_snoc in I as [I|[-> _]]; [now apply FI|lia]|]. split; [exact MN|]. destruct B4 as [B4|(q & p & H & c' & Q1 & VH & LH & R)]; [now left|]. right. assert (QD : q <> d) by (intros ->; destruct VG as [_ VG]; now apply (NC _ _ ED' Q1) in VG). exists q, p, H, c'. split; [exact Q1|]. split; [|split; [apply last_snoc; auto|exact R]]. apply VN. left. split; [|exact VH]. intros ->. destruct VH as [_ VH], VF as [_ VF]. congruence.
    + rewrite ED in ED'. injection ED' as <-. destruct (CC d D k F b ED VF) as (B1 & B2 & B3 & _ & B4). cbn [with_max m_basins m_dim m_max m_min m_parent]. do 2 (split; [assumption|]). split.
      { intros LO. assert (H : (length n <= k)%nat) by (apply LO, nth_error_snoc; rewrite CL; auto). lia. }
      split; [left; exact FV|].
      destruct B4 as [(i & H & c' & VH & IJ & NX & R)|(FI & MN & B4)].
      * left. exists i, H, c'. split; [apply VN; left; split; [lia|exact VH]|]. split; [exact IJ|]. split; [intros i' I L; apply nth_error_snoc in I as [I|[I _]]; [now apply NX|lia]|exact R].
      * right. split; [intros i I; apply nth_error_snoc in I as [I|[-> _]]; [now apply FI|lia]|]. split; [exact MN|]. destruct B4 as [B4|(q & p & H & c' & Q1 & VH & LH & PK & R)]; [now left|]. right. exists q, p, H, c'. split; [exact Q1|]. split; [apply VN; left; split; [lia|exact VH]|]. split; [|split; [exact PK|exact R]]. apply last_snoc; [|exact LH]. intros <-. assert (X := proj2 VF). apply LH in X. lia.
    + rewrite ED in ED'. injection ED' as <-. unfold E. cbn [m_basins m_dim m_max m_min m_parent]. do 2 (split; [reflexivity|]). split; [reflexivity|]. split; [right; intros j J; apply nth_error_snoc in J as [J|[J _]]; [apply nth_error_len in J; lia|lia]|]. left. exists k, (with_max v F), b. split; [apply VN; right; left; auto|]. split; [exact KL|]. split; [|auto]. intros j J L. apply nth_error_snoc in J as [J|[J _]]; [now apply LF|lia].
  - intros d' LD'. unfold m'. destruct (Nat.eq_dec d d') as [<-|N].
    + right. exists (length n). rewrite nth_upd_same by lia. split; [reflexivity|]. split; [apply nth_error_snoc; rewrite CL; auto|]. intros j J. apply nth_error_snoc in J as [J|[J _]]; [apply nth_error_len in J; lia|lia].
    + unfold mapped. rewrite nth_upd_other by exact N. destruct (CP d' LD') as [[H K]|(i & H & K & LK)].
      * left. split; [exact H|]. intros i J. apply nth_error_snoc in J as [J|[_ J]]; [now apply K in J|congruence].
      * right. exists i. split; [exact H|]. split; [apply nth_error_snoc; auto|now apply last_snoc].
Qed.
End Split.
