(** Splitting domains: the loop over the values and the domains left over. *)
From Coq Require Import QArith Lqa Sorted.
From Verif Require Import Base GridModel NeighModel RootsModel UnionModel SplitModel SplitSpec SplitProofs.
Local Open Scope Z_scope.

Section Split.
Variable doms : list domain.
Hypothesis TI : tight doms.

(** Every version has the atoms found at the value where it begins. *)
Definition explained (pv : list step) (n : news) (origin : list nat) : Prop :=
  forall d k E a, version n origin d k E a -> exists s, In s pv /\ m_min E = fst s /\ a = atoms_of (snd s) d.

Record inv (v : Q) (around : list (list nat)) (prev : list (nat * list nat)) (pv : list step) (k : nat) (n : news) (m : list Z) (origin : list nat) : Prop := Inv {
  i_core : core doms n m origin;
  i_map : forall d D, nth_error doms d = Some D -> (nth d m (-1) <> -1 <-> (m_min D < m_max D)%Q /\ ((m_min D < v)%Q \/ ((m_min D == v)%Q /\ (d < k)%nat)));
  i_low : forall d j E a, version n origin d j E a -> (m_min E <= v)%Q /\ ((k <= d)%nat -> (m_min E < v)%Q);
  i_past : forall s, In s pv -> (fst s < v)%Q;
  i_counted : forall s d, In s pv -> counted doms n origin s d;
  i_now : forall d, (d < k)%nat -> counted doms n origin (v, around) d;
  i_prev : forall d D, nth_error doms d = Some D -> (k <= d)%nat -> (m_min D < v)%Q -> (v < m_max D)%Q ->
    exists old j E a, find (fun p => Nat.eqb (fst p) d) prev = Some (d, old) /\ version n origin d j E a /\ last_of origin d j /\ length a = length old;
  i_last : forall d D, nth_error doms d = Some D -> (d < k)%nat -> (m_min D <= v)%Q -> (v < m_max D)%Q ->
    exists j E a, version n origin d j E a /\ last_of origin d j /\ length a = length (atoms_of around d);
  i_atoms : explained (pv ++ [(v, around)]) n origin }.

Lemma alive_spec v D : alive v D = true <-> (m_min D <= v)%Q /\ (v < m_max D)%Q.
Proof. unfold alive. rewrite andb_true_iff, Qle_bool_iff, Qltb_lt. reflexivity. Qed.
Lemma mapped_version n m origin d j : core doms n m origin -> nth_error origin j = Some d -> nth d m (-1) <> -1.
Proof. intros C H. destruct (c_mapped _ _ _ _ C d (c_range _ _ _ _ C _ _ H)) as [[_ K]|(k & K & _)]; [now apply K in H|lia]. Qed.

Lemma append_step v around prev pv k n m origin D : inv v around prev pv k n m origin -> nth_error doms k = Some D ->
  exists n' m' origin', (if alive v D then append doms v around prev (n, m) k else Done (n, m)) = Done (n', m') /\ inv v around prev pv (S k) n' m' origin'.
Proof.
  intros I ED. pose proof (nth_error_len _ _ _ ED) as LD. assert (ND : nth k doms dm0 = D) by now apply nth_error_nth. destruct I as [C IM IL IP IC IN IV IA IX]. destruct (alive v D) eqn:AL.
  2:{ (* not in the solid *)
    assert (NA : (m_min D <= v)%Q -> (v < m_max D)%Q -> False) by (intros A B; assert (H : alive v D = true) by (apply alive_spec; auto); congruence).
    exists n, m, origin. split; [reflexivity|]. split; auto.
    - intros d E H. rewrite (IM d E H). split; [intros [A [B|[B L]]]; (split; [exact A|]); [now left|right; split; [exact B|lia]]|]. intros [A [B|[B L]]]; (split; [exact A|]); [now left|]. right. split; [exact B|]. destruct (Nat.eq_dec d k) as [->|N]; [|lia]. exfalso. rewrite ED in H. injection H as <-. apply NA; [lra|]. rewrite <- B. exact A.
    - intros d j E a H. destruct (IL d j E a H) as [A B]. split; [exact A|]. intros L. apply B. lia.
    - intros d L. destruct (Nat.eq_dec d k) as [->|N]; [|apply IN; lia]. intros D' H A B. rewrite ED in H. injection H as <-. now destruct NA.
    - intros d E H L. apply IV; [exact H|lia].
    - intros d E H L A B. destruct (Nat.eq_dec d k) as [->|N]; [|eapply IA; eauto; lia]. rewrite ED in H. injection H as <-. now destruct NA. }
  apply alive_spec in AL as [A1 A2]. unfold append. rewrite ND. destruct (Qeq_bool (m_min D) v) eqn:EV.
  - (* a new domain *)
    apply Qeq_bool_iff in EV.
    assert (U : nth k m (-1) = -1). { destruct (Z.eq_dec (nth k m (-1)) (-1)) as [H|H]; [exact H|]. apply (IM k D ED) in H as [_ [H|[_ H]]]; [lra|lia]. }
    destruct (keep_core doms TI n m origin k D v (atoms_of around k) C ED U ltac:(lra)) as (E & m' & EK & C' & ME & XE & -> & NO).
    { intros q Q0. destruct (TI k D ED) as [H|(q' & P & Q1 & EP & QK & NE & MX)]; [lia|]. assert (q' = q) by lia. subst q'. apply (IM q P EP). split; [exact NE|]. left. lra. }
    assert (CL := c_len _ _ _ _ C). assert (VS := fun d j G a => version_snoc n origin (E, atoms_of around k) k d j G a CL).
    assert (VO : forall d j G a, version n origin d j G a -> d <> k) by (intros d j G a [_ H] ->; now apply NO in H).
    exists (n ++ [(E, atoms_of around k)]), (upd m k (Z.of_nat (length n))), (origin ++ [k]). split; [exact EK|]. split; [exact C'| | | | | | | |].
    + intros d D' H. destruct (Nat.eq_dec k d) as [<-|N].
      * rewrite ED in H. injection H as <-. rewrite nth_upd_same by (rewrite (c_map _ _ _ _ C); exact LD). split; [intros _|lia]. split; [lra|]. right. split; [exact EV|lia].
      * rewrite nth_upd_other by exact N. rewrite (IM d D' H). split; (intros [A [B|[B L]]]; (split; [exact A|]); [now left|right; split; [exact B|lia]]).
    + intros d j G a H. apply VS in H as [H|(-> & -> & H)]; [|injection H as <- <-; rewrite ME; split; [lra|lia]]. destruct (IL d j G a H) as [A B]. split; [exact A|]. intros L. apply B. lia.
    + exact IP.
    + intros s d H. apply counted_snoc; auto.
    + intros d L. destruct (Nat.eq_dec d k) as [->|N]; [|apply counted_snoc; [exact CL|apply IN; lia]]. intros D' H B1 B2. rewrite ED in H. injection H as <-. exists (length n), E, (atoms_of around k). split; [apply VS; auto|]. cbn [fst snd]. rewrite ME, XE. split; [lra|]. split; [exact A2|]. auto.
    + intros d D' H L B1 B2. destruct (IV d D' H ltac:(lia) B1 B2) as (old & j & G & a & F & V & LA & LE). exists old, j, G, a. split; [exact F|]. split; [apply VS; auto|]. split; [|exact LE]. apply last_snoc; [lia|exact LA].
    + intros d D' H L B1 B2. destruct (Nat.eq_dec d k) as [->|N].
      * exists (length n), E, (atoms_of around k). split; [apply VS; auto|]. split; [|reflexivity]. intros j J. apply nth_error_snoc in J as [J|[J _]]; [now apply NO in J|lia].
      * destruct (IA d D' H ltac:(lia) B1 B2) as (j & G & a & V & LA & LE). exists j, G, a. split; [apply VS; auto|]. split; [|exact LE]. apply last_snoc; [lia|exact LA].
    + intros d j G a H. apply VS in H as [H|(-> & -> & H)]; [now apply (IX d j)|]. injection H as <- <-. exists (v, around). split; [apply in_or_app; right; now left|]. auto.
  - (* an old one *)
    assert (EV' : ~ (m_min D == v)%Q) by (intros H; apply Qeq_bool_iff in H; congruence). assert (LV : (m_min D < v)%Q) by (apply Qle_lt_or_eq in A1 as [H|H]; [exact H|contradiction]).
    destruct (IV k D ED (le_n k) LV A2) as (old & j & F & b & EF & VF & LF & LB). rewrite EF.
    assert (MF : m_max F = m_max D) by (destruct (c_chain _ _ _ _ C k D j F b ED VF) as (_ & _ & H & _); auto). destruct (IL k j F b VF) as [_ LO]. specialize (LO (le_n k)).
    destruct (Nat.eqb_spec (length old) (length (atoms_of around k))) as [EQ|NE].
    + exists n, m, origin. split; [reflexivity|]. split; auto.
      * intros d D' H. rewrite (IM d D' H). split; (intros [A [B|[B L]]]; (split; [exact A|]); [now left|right; split; [exact B|]]); [lia|]. destruct (Nat.eq_dec d k) as [->|N]; [|lia]. exfalso. rewrite ED in H. injection H as <-. contradiction.
      * intros d i G a H. destruct (IL d i G a H) as [A B]. split; [exact A|]. intros L. apply B. lia.
      * intros d L. destruct (Nat.eq_dec d k) as [->|N]; [|apply IN; lia]. intros D' H B1 B2. exists j, F, b. split; [exact VF|]. rewrite ED in H. injection H as <-. cbn [fst snd]. split; [lra|]. split; [rewrite MF; exact A2|]. split; [congruence|]. intros H. lra.
      * intros d D' H L. apply IV; [exact H|lia].
      * intros d D' H L B1 B2. destruct (Nat.eq_dec d k) as [->|N]; [|eapply IA; eauto; lia]. exists j, F, b. split; [exact VF|]. split; [exact LF|congruence].
    + destruct (cut_core doms n m origin k D v (atoms_of around k) j F b C ED VF LF LO) as (MK & EC & C' & VN).
      { intros d' D' ED' PD i H. assert (MM := mapped_version _ _ _ _ _ C H). apply (IM d' D' ED') in MM as [_ MM]. destruct (TI d' D' ED') as [X|(q & P & Q1 & EP & QK & _ & MX)]; [lia|]. assert (q = k) by lia. subst q. rewrite ED in EP. injection EP as <-. destruct MM as [MM|[MM _]]; lra. }
      rewrite MK. set (E := Dm (m_basins D) v (m_max D) (m_dim D) (Z.of_nat j)) in *. set (n' := upd (n ++ [(E, atoms_of around k)]) j (with_max v F, b)) in *. rewrite EC. cbn [oget obind]. exists n', (upd m k (Z.of_nat (length n))), (origin ++ [k]). split; [reflexivity|].
      assert (CL := c_len _ _ _ _ C). assert (JK : forall d i G a, version n origin d i G a -> d <> k -> i <> j) by (intros d i G a [_ H] N ->; destruct VF as [_ VF]; congruence).
      split; [exact C'| | | | | | | |].
      * intros d D' H. destruct (Nat.eq_dec k d) as [<-|N].
        -- rewrite ED in H. injection H as <-. rewrite nth_upd_same by (rewrite (c_map _ _ _ _ C); exact LD). split; [intros _|lia]. split; [lra|]. left. exact LV.
        -- rewrite nth_upd_other by exact N. rewrite (IM d D' H). split; (intros [A [B|[B L]]]; (split; [exact A|]); [now left|right; split; [exact B|lia]]).
      * intros d i G a H. apply VN in H as [[_ H]|[(-> & -> & -> & ->)|(-> & -> & -> & ->)]].
        -- destruct (IL d i G a H) as [A B]. split; [exact A|]. intros L. apply B. lia.
        -- cbn [with_max m_min]. split; [lra|lia].
        -- unfold E. cbn [m_min]. split; [lra|lia].
      * exact IP.
      * intros s d H D' HD B1 B2. destruct (IC s d H D' HD B1 B2) as (i & G & a & V & B3 & B4 & B5). destruct (Nat.eq_dec i j) as [->|N].
        -- destruct V as [V1 V2], VF as [F1 F2]. rewrite F1 in V1. injection V1 as <- <-. rewrite F2 in V2. injection V2 as <-. exists j, (with_max v F), b. split; [apply VN; right; left; auto|]. cbn [with_max m_min m_max]. split; [exact B3|]. split; [now apply IP|exact B5].
        -- exists i, G, a. split; [apply VN; left; auto|auto].
      * intros d L. destruct (Nat.eq_dec d k) as [->|N].
        -- intros D' H B1 B2. exists (length n), E, (atoms_of around k). split; [apply VN; right; right; auto|]. unfold E. cbn [m_min m_max fst snd]. split; [lra|]. split; [exact A2|]. auto.
        -- intros D' H B1 B2. destruct (IN d ltac:(lia) D' H B1 B2) as (i & G & a & V & R). exists i, G, a. split; [|exact R]. apply VN. left. split; [now apply (JK d i G a)|exact V].
      * intros d D' H L B1 B2. destruct (IV d D' H ltac:(lia) B1 B2) as (old' & i & G & a & FF & V & LA & LE). exists old', i, G, a. split; [exact FF|]. split; [apply VN; left; split; [apply (JK d i G a V); lia|exact V]|]. split; [|exact LE]. apply last_snoc; [lia|exact LA].
      * intros d D' H L B1 B2. destruct (Nat.eq_dec d k) as [->|N].
        -- exists (length n), E, (atoms_of around k). split; [apply VN; right; right; auto|]. split; [|reflexivity]. intros i J. apply nth_error_snoc in J as [J|[J _]]; [apply nth_error_len in J; lia|lia].
        -- destruct (IA d D' H ltac:(lia) B1 B2) as (i & G & a & V & LA & LE). exists i, G, a. split; [apply VN; left; split; [now apply (JK d i G a)|exact V]|]. split; [|exact LE]. apply last_snoc; [lia|exact LA].
      * intros d i G a H. apply VN in H as [[_ H]|[(-> & -> & -> & ->)|(-> & -> & -> & ->)]]; [now apply (IX d i)|now apply (IX k j F b)|]. exists (v, around). split; [apply in_or_app; right; now left|]. auto.
Qed.

Lemma ofold_filter {A} (f : A -> nat -> outcome A) p l : forall st, ofold f (filter p l) st = ofold (fun st d => if p d then f st d else Done st) l st.
Proof. induction l as [|d l IH]; intros st; [reflexivity|]. cbn [filter ofold]. destruct (p d); cbn [ofold obind]; [|apply IH]. destruct (f st d); cbn [obind]; auto. Qed.
Lemma ofold_snoc {A} (f : A -> nat -> outcome A) l d st : ofold f (l ++ [d]) st = obind (ofold f l st) (fun st1 => f st1 d).
Proof. revert st. induction l as [|x l IH]; intros st; cbn [app ofold obind]; [destruct (f st d); reflexivity|]. destruct (f st x); cbn [obind]; auto. Qed.

Lemma append_all v around prev pv n m origin : inv v around prev pv 0 n m origin ->
  exists n' m' origin', ofold (append doms v around prev) (current doms v) (n, m) = Done (n', m') /\ inv v around prev pv (length doms) n' m' origin'.
Proof.
  intros I. unfold current. rewrite ofold_filter. assert (H : forall k, (k <= length doms)%nat -> exists n' m' origin',
    ofold (fun st d => if alive v (nth d doms dm0) then append doms v around prev st d else Done st) (seq 0 k) (n, m) = Done (n', m') /\ inv v around prev pv k n' m' origin').
  { induction k as [|k IH]; intros L; [exists n, m, origin; auto|]. destruct IH as (n1 & m1 & o1 & E & I1); [lia|]. destruct (nth_error doms k) as [D|] eqn:ED; [|apply nth_error_None in ED; lia]. destruct (append_step _ _ _ _ _ _ _ _ D I1 ED) as (n2 & m2 & o2 & E2 & I2). exists n2, m2, o2. split; [|exact I2].
    rewrite seq_S, ofold_snoc, E. cbn [obind Nat.add]. rewrite (nth_error_nth _ _ dm0 ED). exact E2. }
  now apply H.
Qed.

Lemma find_current v (f : nat -> list nat) d D : nth_error doms d = Some D -> (m_min D <= v)%Q -> (v < m_max D)%Q ->
  find (fun p => Nat.eqb (fst p) d) (map (fun d => (d, f d)) (current doms v)) = Some (d, f d).
Proof.
  intros ED A B. assert (H : In d (current doms v)). { apply filter_In. split; [apply in_seq; apply nth_error_len in ED; lia|]. rewrite (nth_error_nth _ _ dm0 ED). apply alive_spec. auto. }
  revert H. induction (current doms v) as [|x l IH]; intros H; [destruct H|]. cbn [map find fst]. destruct (Nat.eqb_spec x d) as [->|N]; [reflexivity|]. apply IH. destruct H as [H|H]; [congruence|exact H].
Qed.

Lemma loop_ok t : forall v around prev pv n m origin, inv v around prev pv 0 n m origin ->
  StronglySorted (fun a b => (a < b)%Q) (v :: map fst t) -> (forall D, In D doms -> (m_min D < v)%Q \/ exists w, In w (v :: map fst t) /\ (w == m_min D)%Q) ->
  exists n' m' origin', split_loop doms ((v, around) :: t) prev (n, m) = Done (n', m') /\ core doms n' m' origin' /\
    (forall s d, In s (pv ++ processed ((v, around) :: t)) -> counted doms n' origin' s d) /\ explained (pv ++ processed ((v, around) :: t)) n' origin'.
Proof.
  induction t as [|[v2 a2] t IH]; intros v around prev pv n m origin I SS CV; destruct (append_all _ _ _ _ _ _ _ I) as (n1 & m1 & o1 & E & I1); cbn [split_loop processed]; rewrite E; cbn [obind].
  - exists n1, m1, o1. destruct I1 as [C IM IL IP IC IN IV IA IX].
    assert (K : (if forallb (fun l : list nat => match l with [] => true | _ => false end) around then [] else []) = @nil step) by (destruct (forallb _ around); reflexivity). rewrite K. split; [destruct (forallb _ around); reflexivity|]. split; [exact C|]. split; [|exact IX].
    intros s d H. apply in_app_or in H as [H|[<-|[]]]; [now apply IC|]. destruct (le_lt_dec (length doms) d) as [L|L]; [|now apply IN]. intros D' ED. apply nth_error_len in ED. lia.
  - destruct (forallb _ around) eqn:EM.
    + exists n1, m1, o1. destruct I1 as [C IM IL IP IC IN IV IA IX]. split; [reflexivity|]. split; [exact C|]. split; [|exact IX]. intros s d H. apply in_app_or in H as [H|[<-|[]]]; [now apply IC|]. destruct (le_lt_dec (length doms) d) as [L|L]; [|now apply IN]. intros D' ED. apply nth_error_len in ED. lia.
    + cbn [map fst] in SS, CV. apply StronglySorted_inv in SS as [SS FA]. assert (LV : (v < v2)%Q) by now apply Forall_inv in FA.
      assert (GAP : forall D, In D doms -> (m_min D < v2)%Q -> (m_min D <= v)%Q). { intros D ID LT. destruct (CV D ID) as [H|(w & [<-|[<-|W]] & EW)]; [lra|lra|lra|]. apply StronglySorted_inv in SS as [_ FB]. rewrite Forall_forall in FB. specialize (FB _ W). cbn in FB. lra. }
      destruct (IH v2 a2 (map (fun d => (d, atoms_of around d)) (current doms v)) (pv ++ [(v, around)]) n1 m1 o1) as (n2 & m2 & o2 & E2 & C2 & A2 & X2).
      * destruct I1 as [C IM IL IP IC IN IV IA IX]. split; [exact C| | | | | | | |].
        -- intros d D ED. pose proof (nth_error_len _ _ _ ED) as LD. rewrite (IM d D ED). split; intros [A B]; (split; [exact A|]).
           ++ left. destruct B as [B|[B _]]; lra.
           ++ destruct B as [B|[_ B]]; [|lia]. apply GAP in B; [|now apply nth_error_In in ED]. apply Qle_lt_or_eq in B as [B|B]; [now left|right; auto].
        -- intros d j G a H. destruct (IL d j G a H) as [A _]. split; [|intros _]; lra.
        -- intros s H. apply in_app_or in H as [H|[<-|[]]]; [|exact LV]. specialize (IP s H). lra.
        -- intros s d H. apply in_app_or in H as [H|[<-|[]]]; [now apply IC|]. destruct (le_lt_dec (length doms) d) as [L|L]; [|now apply IN]. intros D' ED. apply nth_error_len in ED. lia.
        -- intros d L. lia.
        -- intros d D ED _ A B. pose proof (nth_error_len _ _ _ ED) as LD. apply GAP in A; [|now apply nth_error_In in ED]. assert (B' : (v < m_max D)%Q) by lra. destruct (IA d D ED LD A B') as (j & G & a & V & LA & LE). exists (atoms_of around d), j, G, a. split; [now apply (find_current v (atoms_of around) d D)|]. auto.
        -- intros d D ED L. lia.
        -- intros d j G a H. destruct (IX d j G a H) as (s & S1 & S2). exists s. split; [|exact S2]. apply in_or_app. now left.
      * exact SS.
      * intros D ID. destruct (CV D ID) as [H|(w & [<-|W] & EW)]; [left; lra|left; lra|]. right. exists w. auto.
      * exists n2, m2, o2. split; [exact E2|]. split; [exact C2|]. rewrite <- app_assoc in A2, X2. auto.
Qed.

(** The domains left over. *)
Lemma fill_all n m origin pv : core doms n m origin -> (forall s d, In s pv -> counted doms n origin s d) -> explained pv n origin ->
  forall k, (k <= length doms)%nat -> exists n' m' origin', ofold (fill doms) (seq 0 k) (n, m) = Done (n', m') /\ core doms n' m' origin' /\
    (forall s d, In s pv -> counted doms n' origin' s d) /\
    (forall d j E a, version n' origin' d j E a -> a = [] \/ exists s, In s pv /\ m_min E = fst s /\ a = atoms_of (snd s) d) /\
    forall d, (d < k)%nat -> nth d m' (-1) <> -1.
Proof.
  intros C A X. induction k as [|k IH]; intros L.
  - exists n, m, origin. split; [reflexivity|]. split; [exact C|]. split; [exact A|]. split; [intros d j E a H; right; now apply (X d j E a)|]. lia.
  - destruct IH as (n1 & m1 & o1 & E1 & C1 & A1 & X1 & M1); [lia|]. rewrite seq_S, ofold_snoc, E1. cbn [obind Nat.add]. unfold fill at 1. cbn [snd]. destruct (Z.eqb_spec (nth k m1 (-1)) (-1)) as [U|U].
    + destruct (nth_error doms k) as [D|] eqn:ED; [|apply nth_error_None in ED; lia]. rewrite (nth_error_nth _ _ dm0 ED).
      destruct (keep_core doms TI n1 m1 o1 k D (m_min D) [] C1 ED U ltac:(lra)) as (E & m' & EK & C' & ME & XE & -> & NO).
      { intros q Q0. destruct (TI k D ED) as [H|(q' & P & Q1 & EP & QK & _)]; [lia|]. assert (q' = q) by lia. subst q'. now apply M1. }
      assert (CL := c_len _ _ _ _ C1). do 3 eexists. split; [exact EK|]. split; [exact C'|]. split; [intros s d H; apply counted_snoc; auto|]. split.
      * intros d j G a H. apply version_snoc in H as [H|(-> & -> & H)]; [now apply (X1 d j)| |exact CL]. injection H as <- <-. now left.
      * intros d LD. destruct (Nat.eq_dec k d) as [<-|N]; [rewrite nth_upd_same by (rewrite (c_map _ _ _ _ C1); lia); lia|]. rewrite nth_upd_other by exact N. apply M1. lia.
    + exists n1, m1, o1. split; [reflexivity|]. do 3 (split; [assumption|]). intros d LD. destruct (Nat.eq_dec d k) as [->|N]; [exact U|apply M1; lia].
Qed.

Theorem split_ok steps : covers steps doms -> exists n origin, get_domains_surrounding_atoms doms steps = Done n /\ length origin = length n /\
  (forall k d, nth_error origin k = Some d -> (d < length doms)%nat) /\ (forall d, (d < length doms)%nat -> exists k, nth_error origin k = Some d) /\
  chained doms n origin /\ (forall s d, In s (processed steps) -> counted doms n origin s d) /\
  (forall d j E a, version n origin d j E a -> a = [] \/ exists s, In s (processed steps) /\ m_min E = fst s /\ a = atoms_of (snd s) d).
Proof.
  intros [SS CV]. assert (NE : forall j (d : nat), @nth_error nat [] j <> Some d) by (intros [|j] d; discriminate).
  assert (C0 : core doms [] (repeat (-1) (length doms)) []). { split; [reflexivity|apply repeat_length|intros k d H; now apply NE in H|intros d D k E a _ [_ H]; now apply NE in H|]. intros d L. left. split; [|intros k H; now apply NE in H]. destruct (nth_in_or_default d (repeat (-1) (length doms)) (-1)) as [H|H]; [now apply repeat_spec in H|exact H]. }
  assert (UM : forall d, nth d (repeat (-1) (length doms)) (-1) = -1) by (intros d; destruct (nth_in_or_default d (repeat (-1) (length doms)) (-1)) as [H|H]; [now apply repeat_spec in H|exact H]).
  assert (LO : exists n' m' origin', split_loop doms steps [] ([], repeat (-1) (length doms)) = Done (n', m') /\ core doms n' m' origin' /\
    (forall s d, In s (processed steps) -> counted doms n' origin' s d) /\ explained (processed steps) n' origin').
  { destruct steps as [|[v around] t].
    - exists [], (repeat (-1) (length doms)), []. split; [reflexivity|]. split; [exact C0|]. split; [intros s d []|]. intros d k E a [_ H]. now apply NE in H.
    - cbn [map fst] in SS, CV. apply (loop_ok t v around [] [] [] (repeat (-1) (length doms)) []).
      + assert (LOW : forall D, In D doms -> (v <= m_min D)%Q). { intros D ID. destruct (CV D ID) as (w & [<-|W] & EW); [lra|]. apply StronglySorted_inv in SS as [_ FB]. rewrite Forall_forall in FB. specialize (FB _ W). cbn in FB. lra. }
        split; [exact C0| | | | | | | |].
        * intros d D ED. rewrite UM. split; [congruence|]. intros [_ [H|[_ H]]]; [|lia]. apply nth_error_In in ED. specialize (LOW D ED). lra.
        * intros d j E a [_ H]. now apply NE in H.
        * intros s [].
        * intros s d [].
        * intros d L. lia.
        * intros d D ED _ H. apply nth_error_In in ED. specialize (LOW D ED). lra.
        * intros d D ED L. lia.
        * intros d j E a [_ H]. now apply NE in H.
      + exact SS.
      + intros D ID. right. now apply CV. }
  destruct LO as (n1 & m1 & o1 & E1 & C1 & A1 & X1). destruct (fill_all n1 m1 o1 (processed steps) C1 A1 X1 (length doms) (le_n _)) as (n2 & m2 & o2 & E2 & C2 & A2 & X2 & M2).
  exists n2, o2. split; [unfold get_domains_surrounding_atoms; rewrite E1; cbn [obind]; rewrite E2; reflexivity|]. split; [apply (c_len _ _ _ _ C2)|]. split; [apply (c_range _ _ _ _ C2)|]. split; [|split; [apply (c_chain _ _ _ _ C2)|split; [exact A2|exact X2]]].
  intros d L. destruct (c_mapped _ _ _ _ C2 d L) as [[H _]|(k & _ & H & _)]; [now destruct (M2 d L)|eauto].
Qed.
End Split.
