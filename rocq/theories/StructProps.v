(** Properties of [Structure]. *)
From Coq Require Import Ascii String QArith Qround Qabs Lqa Lia.
From Verif Require Import Base GridModel ChargeModel NearModel RefineModel RefineProofs TextModel TextProofs VaspModel VaspProofs CoordModel CoordProofs ConnProofs StructModel.
Local Open Scope Z_scope.

(** ** Grouping *)
Definition indices (labels : list text) : list (nat * text) := combine (seq 0 (length labels)) labels.
Lemma in_indices labels i l : In (i, l) (indices labels) <-> nth_error labels i = Some l.
Proof.
  unfold indices. cut (forall s, In (i, l) (combine (seq s (length labels)) labels) <-> (s <= i)%nat /\ nth_error labels (i - s) = Some l).
  { intros H. rewrite H, Nat.sub_0_r. intuition lia. }
  induction labels as [|x t IH]; intros s; cbn [length seq combine].
  - split; [intros []|]. intros [_ H]. destruct (i - s)%nat; discriminate.
  - split.
    + intros [E|I]; [injection E as <- <-; rewrite Nat.sub_diag; split; [lia|reflexivity]|]. apply IH in I as [L E]. split; [lia|]. replace (i - s)%nat with (S (i - S s)) by lia. exact E.
    + intros [L E]. destruct (Nat.eq_dec i s) as [-> |N]; [rewrite Nat.sub_diag in E; injection E as <-; now left|]. right. apply IH. split; [lia|]. replace (i - s)%nat with (S (i - S s)) in E by lia. exact E.
Qed.
Lemma nodup_indices labels : NoDup (map fst (indices labels)).
Proof.
  unfold indices. assert (E : map fst (combine (seq 0 (length labels)) labels) = seq 0 (length labels)).
  { generalize 0%nat. induction labels as [|x t IH]; intros s; [reflexivity|]. cbn. now rewrite IH. }
  rewrite E. apply seq_NoDup.
Qed.
Definition holds (g : list (text * list nat)) (l : text) (i : nat) : Prop := exists s, In (l, s) g /\ In i s.
Lemma append_fst g l i x : In x (map fst (append_site g l i)) <-> x = l \/ In x (map fst g).
Proof.
  induction g as [|[l' s] g IH]; cbn [append_site map fst]; [cbn; intuition|]. destruct (text_eqb l l') eqn:E; cbn [map fst].
  - apply text_eqb_spec in E. subst l'. cbn. intuition.
  - cbn [In]. rewrite IH. intuition.
Qed.
Lemma append_nodup g l i : NoDup (map fst g) -> NoDup (map fst (append_site g l i)).
Proof.
  induction g as [|[l' s] g IH]; cbn [append_site map fst]; intros N; [constructor; [intros []|constructor]|]. inversion N as [|? ? N1 N2]; subst. destruct (text_eqb l l') eqn:E; cbn [map fst]; [constructor; assumption|]. constructor; [|now apply IH]. rewrite append_fst. intros [->|I]; [|contradiction]. rewrite (proj2 (text_eqb_spec l l) eq_refl) in E. discriminate.
Qed.
Lemma append_holds g l i x j : NoDup (map fst g) -> (holds (append_site g l i) x j <-> holds g x j \/ (x = l /\ j = i)).
Proof.
  unfold holds. induction g as [|[l' s] g IH]; cbn [append_site map fst]; intros N.
  - split; [intros (s & [E|[]] & I); injection E as <- <-; destruct I as [<-|[]]; auto|]. intros [(s & [] & _)|[-> ->]]. exists [i]. split; now left.
  - inversion N as [|? ? N1 N2]; subst. destruct (text_eqb l l') eqn:E.
    + apply text_eqb_spec in E. subst l'. split.
      * intros (s' & [Q|I] & J); [injection Q as <- <-; apply in_app_iff in J as [J|[<-|[]]]; [left; exists s; split; [now left|exact J]|now right]|left; exists s'; split; [now right|exact J]].
      * intros [(s' & [Q|I] & J)|[-> ->]]; [injection Q as <- <-; exists (s ++ [i]); split; [now left|apply in_app_iff; now left]|exists s'; split; [now right|exact J]|exists (s ++ [i]); split; [now left|apply in_app_iff; right; now left]].
    + split.
      * intros (s' & [Q|I] & J); [left; exists s'; split; [now left|exact J]|]. assert (H : exists s, In (x, s) (append_site g l i) /\ In j s) by eauto. apply IH in H; [|exact N2]. destruct H as [(s'' & I' & J')|H]; [left; exists s''; split; [now right|exact J']|now right].
      * intros [(s' & [Q|I] & J)|H]; [exists s'; split; [now left|exact J]| |].
        -- assert (H : exists s, In (x, s) (append_site g l i) /\ In j s) by (apply IH; [exact N2|]; left; eauto). destruct H as (s'' & I' & J'). exists s''. split; [now right|exact J'].
        -- assert (H' : exists s, In (x, s) (append_site g l i) /\ In j s) by (apply IH; [exact N2|]; right; exact H). destruct H' as (s'' & I' & J'). exists s''. split; [now right|exact J'].
Qed.
Lemma append_sites_nodup g l i : (forall x s, In (x, s) g -> NoDup s /\ ~ In i s) -> forall x s, In (x, s) (append_site g l i) -> NoDup s.
Proof.
  intros H. induction g as [|[l' s'] g IH]; cbn [append_site]; intros x s I.
  - destruct I as [E|[]]. injection E as <- <-. repeat constructor. intros [].
  - destruct (text_eqb l l').
    + destruct I as [E|I]; [injection E as <- <-; destruct (H l' s' (or_introl eq_refl)) as [A B]; apply NoDup_rev in A; rewrite <- (rev_involutive (s' ++ [i])); apply NoDup_rev; rewrite rev_app_distr; cbn; constructor; [now rewrite <- in_rev|exact A]|apply (H x s (or_intror I))].
    + destruct I as [E|I]; [injection E as <- <-; apply (H l' s' (or_introl eq_refl))|]. apply (IH (fun x s J => H x s (or_intror J)) x s I).
Qed.
Lemma append_sites_nonempty g l i : (forall x s, In (x, s) g -> s <> []) -> forall x s, In (x, s) (append_site g l i) -> s <> [].
Proof.
  intros H. induction g as [|[l' s'] g IH]; cbn [append_site]; intros x s I.
  - destruct I as [E|[]]. injection E as <- <-. discriminate.
  - destruct (text_eqb l l').
    + destruct I as [E|I]; [injection E as <- <-; intros C; apply app_eq_nil in C as [_ C]; discriminate|apply (H x s (or_intror I))].
    + destruct I as [E|I]; [injection E as <- <-; apply (H l' s' (or_introl eq_refl))|]. apply (IH (fun x s J => H x s (or_intror J)) x s I).
Qed.
(** The groups partition the sites by label. *)
Lemma grouped_spec labels : let g := grouped labels in
  NoDup (map fst g) /\ (forall l i, holds g l i <-> nth_error labels i = Some l) /\ (forall l s, In (l, s) g -> NoDup s /\ s <> []).
Proof.
  cbv zeta. unfold grouped. fold (indices labels). pose proof (nodup_indices labels) as ND.
  cut (forall ps g, NoDup (map fst ps) -> NoDup (map fst g) -> (forall l s, In (l, s) g -> NoDup s /\ s <> []) -> (forall p, In p ps -> forall l, ~ holds g l (fst p)) ->
    let g' := fold_left (fun g '(i, l) => append_site g l i) ps g in NoDup (map fst g') /\ (forall l i, holds g' l i <-> holds g l i \/ In (i, l) ps) /\ (forall l s, In (l, s) g' -> NoDup s /\ s <> [])).
  { intros H. destruct (H (indices labels) [] ND) as (A & B & C); [constructor|intros l s []|intros p _ l (s & [] & _)|]. split; [exact A|]. split; [|exact C]. intros l i. rewrite B, in_indices. split; [intros [(s & [] & _)|E]; exact E|now right]. }
  clear. induction ps as [|[i l] ps IH]; intros g NP NG SG D; cbv zeta.
  - cbn [fold_left]. split; [exact NG|]. split; [|exact SG]. intros l i. cbn. intuition.
  - cbn [fold_left]. inversion NP as [|? ? N1 N2]; subst. destruct (IH (append_site g l i) N2) as (A & B & C).
    + now apply append_nodup.
    + intros x s I. split.
      * revert x s I. apply append_sites_nodup. intros x s I. split; [apply (SG x s I)|]. intros J. apply (D (i, l) (or_introl eq_refl) x). exists s. auto.
      * revert x s I. apply append_sites_nonempty. intros x s I. apply (SG x s I).
    + intros [j k] I x H. apply append_holds in H; [|exact NG]. cbn [fst] in *. destruct H as [H|[-> ->]]; [apply (D (j, k) (or_intror I) x H)|]. apply N1. apply (in_map fst) in I. exact I.
    + split; [exact A|]. split; [|exact C]. intros x j. rewrite B, append_holds by exact NG. cbn [In]. split.
      * intros [[H|[-> ->]]|H]; auto.
      * intros [H|[E|H]]; [auto|injection E as -> ->; auto|auto].
Qed.

(** ** The writes *)
Definition group_writes (ignore : bool) (e : text * list nat) : list (nat * text) :=
  let '(label, sites) := e in
  if Nat.eqb (length sites) 0 || (Nat.eqb (length sites) 1 && ignore) then [] else map (fun '(idx, site) => (site, new_label label idx)) (combine (seq 0 (length sites)) sites).
Lemma relabel_writes ignore labels : relabel_sites ignore labels = fold_left (fun out '(i, v) => upd out i v) (flat_map (group_writes ignore) (grouped labels)) labels.
Proof.
  unfold relabel_sites. rewrite fold_left_flat_map. generalize labels at 2 4. induction (grouped labels) as [|[l s] g IH]; intros out; [reflexivity|]. cbn [fold_left]. rewrite IH. f_equal. unfold relabel_group, group_writes. destruct (_ || _); [reflexivity|].
  generalize (combine (seq 0 (length s)) s). intros ps. revert out. induction ps as [|[a b] ps IHp]; intros out; [reflexivity|]. cbn [map fold_left]. apply IHp.
Qed.
Lemma in_enum {A} (s : list A) r i : In (r, i) (combine (seq 0 (length s)) s) <-> nth_error s r = Some i.
Proof.
  cut (forall b, In (r, i) (combine (seq b (length s)) s) <-> (b <= r)%nat /\ nth_error s (r - b) = Some i).
  { intros H. rewrite H, Nat.sub_0_r. intuition lia. }
  induction s as [|x t IH]; intros b; cbn [length seq combine].
  - split; [intros []|]. intros [_ H]. destruct (r - b)%nat; discriminate.
  - split.
    + intros [E|I]; [injection E as <- <-; rewrite Nat.sub_diag; split; [lia|reflexivity]|]. apply IH in I as [L E]. split; [lia|]. replace (r - b)%nat with (S (r - S b)) by lia. exact E.
    + intros [L E]. destruct (Nat.eq_dec r b) as [-> |N]; [rewrite Nat.sub_diag in E; injection E as <-; now left|]. right. apply IH. split; [lia|]. replace (r - b)%nat with (S (r - S b)) in E by lia. exact E.
Qed.
Lemma in_writes ignore g i v : In (i, v) (flat_map (group_writes ignore) g) <->
  exists l s r, In (l, s) g /\ nth_error s r = Some i /\ v = new_label l r /\ (length s = 1%nat -> ignore = false).
Proof.
  rewrite in_flat_map. split.
  - intros ((l & s) & I & H). unfold group_writes in H. destruct (Nat.eqb (length s) 0) eqn:E0; [destruct H|]. cbn [orb] in H. destruct (Nat.eqb (length s) 1 && ignore) eqn:E1; [destruct H|]. apply in_map_iff in H as ((r & j) & E & H). injection E as -> <-. apply in_enum in H. exists l, s, r. repeat split; auto. intros L. rewrite L in E1. cbn in E1. exact E1.
  - intros (l & s & r & I & N & -> & C). exists (l, s). split; [exact I|]. unfold group_writes. assert (L : (0 < length s)%nat) by (apply nth_error_Some_lt with (1 := N) || (assert (H : nth_error s r <> None) by congruence; apply nth_error_Some in H; lia)). replace (Nat.eqb (length s) 0) with false by (symmetry; apply Nat.eqb_neq; lia). cbn [orb].
    destruct (Nat.eqb (length s) 1) eqn:E1; [apply Nat.eqb_eq in E1; rewrite (C E1)|]; cbn [andb]; apply in_map_iff; exists (r, i); (split; [reflexivity|now apply in_enum]).
Qed.
Lemma fold_upd_spec {A} (ps : list (nat * A)) : forall out, NoDup (map fst ps) -> length (fold_left (fun o '(i, v) => upd o i v) ps out) = length out /\
  forall i, (forall v, In (i, v) ps -> (i < length out)%nat -> nth_error (fold_left (fun o '(i, v) => upd o i v) ps out) i = Some v) /\ (~ In i (map fst ps) -> nth_error (fold_left (fun o '(i, v) => upd o i v) ps out) i = nth_error out i).
Proof.
  induction ps as [|[j w] ps IH]; intros out N; [split; [reflexivity|]; intros i; split; [intros v []|reflexivity]|]. cbn [fold_left map fst] in *. inversion N as [|? ? N1 N2]; subst. destruct (IH (upd out j w) N2) as [L H]. split; [now rewrite L, upd_length|]. intros i. destruct (H i) as [H1 H2]. split.
  - intros v [E|I] B; [injection E as -> ->; rewrite H2 by exact N1; rewrite nth_error_upd; rewrite Nat.eqb_refl; replace (Nat.ltb i (length out)) with true by (symmetry; now apply Nat.ltb_lt); reflexivity|apply H1; [exact I|now rewrite upd_length]].
  - intros NI. rewrite H2 by (intros C; apply NI; now right). rewrite nth_error_upd. replace (Nat.eqb j i) with false; [reflexivity|]. symmetry. apply Nat.eqb_neq. intros ->. apply NI. now left.
Qed.
Lemma nodup_writes ignore labels : NoDup (map fst (flat_map (group_writes ignore) (grouped labels))).
Proof.
  destruct (grouped_spec labels) as (ND & HO & SG). assert (DJ : forall l l' s s' i, In (l, s) (grouped labels) -> In (l', s') (grouped labels) -> In i s -> In i s' -> l = l').
  { intros l l' s s' i I I' J J'. assert (A : nth_error labels i = Some l) by (apply HO; exists s; auto). assert (B : nth_error labels i = Some l') by (apply HO; exists s'; auto). congruence. }
  clear HO. induction (grouped labels) as [|[l s] g IH]; [constructor|]. cbn [flat_map]. rewrite map_app. cbn [map fst] in ND. inversion ND as [|? ? N1 N2]; subst.
  assert (GW : map fst (group_writes ignore (l, s)) = [] \/ map fst (group_writes ignore (l, s)) = s).
  { unfold group_writes. destruct (_ || _); [now left|right]. rewrite map_map. generalize 0%nat. clear. induction s as [|x t IH]; intros b; [reflexivity|]. cbn. now rewrite IH. }
  assert (T : NoDup (map fst (flat_map (group_writes ignore) g))) by (apply IH; [exact N2|intros x y I; apply (SG x y (or_intror I))|intros a b c d i I I'; apply (DJ a b c d i (or_intror I) (or_intror I'))]).
  destruct GW as [-> | ->]; [exact T|]. destruct (SG l s (or_introl eq_refl)) as [NS _]. clear IH SG. revert DJ. induction s as [|x s IHs]; intros DJ; [exact T|]. inversion NS as [|? ? M1 M2]; subst. cbn [app]. constructor.
  - rewrite in_app_iff. intros [C|C]; [contradiction|]. apply in_map_iff in C as ((i & v) & E & C). cbn in E. subst i. apply in_writes in C as (l' & s' & r & I & NR & _). apply nth_error_In in NR. pose proof (DJ l l' (x :: s) s' x (or_introl eq_refl) (or_intror I) (or_introl eq_refl) NR) as EL. subst l'. apply N1. apply (in_map fst) in I. exact I.
  - apply (IHs M2). intros a b c d i I I' J J'. destruct I as [E|I], I' as [E'|I'].
    + injection E as <- <-. injection E' as <- <-. reflexivity.
    + injection E as <- <-. apply (DJ l b (x :: s) d i (or_introl eq_refl) (or_intror I')); [now right|exact J'].
    + injection E' as <- <-. apply (DJ a l c (x :: s) i (or_intror I) (or_introl eq_refl) J). now right.
    + apply (DJ a b c d i (or_intror I) (or_intror I') J J').
Qed.
(** What a site is called afterwards. *)
Lemma relabel_spec ignore labels i l : nth_error labels i = Some l -> exists s r, In (l, s) (grouped labels) /\ nth_error s r = Some i /\
  nth_error (relabel_sites ignore labels) i = Some (if Nat.eqb (length s) 1 && ignore then l else new_label l r).
Proof.
  intros E. destruct (grouped_spec labels) as (ND & HO & SG). destruct (proj2 (HO l i) E) as (s & I & J). apply In_nth_error in J as (r & R). exists s, r. split; [exact I|]. split; [exact R|]. rewrite relabel_writes. destruct (fold_upd_spec (flat_map (group_writes ignore) (grouped labels)) labels (nodup_writes ignore labels)) as [_ H]. destruct (H i) as [H1 H2].
  assert (B : (i < length labels)%nat) by (apply nth_error_Some; congruence). destruct (Nat.eqb (length s) 1 && ignore) eqn:K.
  - apply andb_prop in K as [K1 K2]. apply Nat.eqb_eq in K1. rewrite H2; [exact E|]. intros C. apply in_map_iff in C as ((j & v) & Ej & C). cbn in Ej. subst j. apply in_writes in C as (l' & s' & r' & I' & R' & _ & CC).
    assert (EL : nth_error labels i = Some l') by (apply HO; exists s'; split; [exact I'|now apply nth_error_In in R']). assert (l' = l) by congruence. subst l'. assert (s' = s). { clear - ND I I'. induction (grouped labels) as [|[a b] g IH]; [destruct I|]. cbn in ND. inversion ND as [|? ? N1 N2]; subst. destruct I as [I|I], I' as [I'|I']; try congruence; [injection I as -> ->; exfalso; apply N1; apply (in_map fst) in I'; exact I'|injection I' as -> ->; exfalso; apply N1; apply (in_map fst) in I; exact I|auto]. } subst s'. rewrite K2 in CC. discriminate (CC K1).
  - apply H1; [|exact B]. apply in_writes. exists l, s, r. repeat split; auto. intros L. rewrite L in K. cbn in K. exact K.
Qed.
Lemma relabel_length ignore labels : length (relabel_sites ignore labels) = length labels.
Proof. rewrite relabel_writes. apply (fold_upd_spec _ labels (nodup_writes ignore labels)). Qed.
Lemma group_unique labels l s s' : In (l, s) (grouped labels) -> In (l, s') (grouped labels) -> s = s'.
Proof.
  destruct (grouped_spec labels) as (ND & _). intros I I'. induction (grouped labels) as [|[a b] g IH]; [destruct I|]. cbn in ND. inversion ND as [|? ? N1 N2]; subst. destruct I as [I|I], I' as [I'|I']; try congruence; [injection I as -> ->; exfalso; apply N1; apply (in_map fst) in I'; exact I'|injection I' as -> ->; exfalso; apply N1; apply (in_map fst) in I; exact I|auto].
Qed.

Lemma dec_no_underscore n : 0 <= n -> ~ In "_"%char (dec n).
Proof. intros N I. pose proof (dec_digits n N) as F. rewrite Forall_forall in F. apply F in I. discriminate. Qed.
Lemma last_sep (a a' d d' : text) : ~ In "_"%char d -> ~ In "_"%char d' -> a ++ "_"%char :: d = a' ++ "_"%char :: d' -> a = a' /\ d = d'.
Proof.
  revert a'. induction a as [|c a IH]; intros a' D D' E.
  - destruct a' as [|c' a']; [injection E as ->; auto|]. cbn in E. injection E as _ E. exfalso. apply D. rewrite E. apply in_app_iff. right. now left.
  - destruct a' as [|c' a']; [cbn in E; injection E as _ E; exfalso; apply D'; rewrite <- E; apply in_app_iff; right; now left|]. cbn in E. injection E as -> E. apply IH in E as [-> ->]; auto.
Qed.
Lemma new_label_inj l l' r r' : new_label l r = new_label l' r' -> l = l' /\ r = r'.
Proof.
  unfold new_label. intros E. apply last_sep in E as [-> E]; try (apply dec_no_underscore; lia). split; [reflexivity|]. apply (f_equal number) in E. rewrite !dec_number in E by lia. lia.
Qed.

(** C31: after [relabel_sites()] no two sites have the same label; each keeps its label as prefix. *)
Theorem C31_unique labels : NoDup (relabel_sites false labels) /\ length (relabel_sites false labels) = length labels /\
  forall i l, nth_error labels i = Some l -> exists k, 1 <= k /\ nth_error (relabel_sites false labels) i = Some (l ++ lit "_" ++ dec k).
Proof.
  split; [|split; [apply relabel_length|]].
  - apply NoDup_nth_error. intros i j L E. rewrite relabel_length in L. destruct (nth_error labels i) as [l|] eqn:EI; [|apply nth_error_None in EI; lia]. destruct (relabel_spec false labels i l EI) as (s & r & I & R & V). rewrite andb_false_r in V. rewrite V in E.
    destruct (nth_error labels j) as [l'|] eqn:EJ; [|apply nth_error_None in EJ; rewrite <- (relabel_length false labels) in EJ; apply nth_error_None in EJ; congruence]. destruct (relabel_spec false labels j l' EJ) as (s' & r' & I' & R' & V'). rewrite andb_false_r in V'. rewrite V' in E. injection E as E. apply new_label_inj in E as [-> ->]. rewrite (group_unique labels _ _ _ I I') in R. congruence.
  - intros i l E. destruct (relabel_spec false labels i l E) as (s & r & _ & _ & V). rewrite andb_false_r in V. exists (Z.of_nat r + 1). split; [lia|exact V].
Qed.
(** With [ignore_uniq], a label that occurs once is kept, and labels are unique if no label that occurs once looks like a
    numbered copy of one that occurs more often. *)
Definition once (labels : list text) (l : text) : Prop := exists i, forall j, nth_error labels j = Some l <-> j = i.
Lemma once_group labels l s : In (l, s) (grouped labels) -> (length s = 1%nat <-> once labels l).
Proof.
  intros I. destruct (grouped_spec labels) as (ND & HO & SG). destruct (SG l s I) as [NS NE]. split.
  - intros L. destruct s as [|i [|]]; try discriminate. exists i. intros j. rewrite <- HO. split; [|intros ->; exists [i]; split; [exact I|now left]]. intros (s & I' & J). rewrite (group_unique _ _ _ _ I' I) in J. destruct J as [J|[]]. congruence.
  - intros (i & H). destruct s as [|a [|b t]]; [congruence|reflexivity|]. exfalso. assert (A : a = i) by (apply H, HO; exists (a :: b :: t); split; [exact I|now left]). assert (B : b = i) by (apply H, HO; exists (a :: b :: t); split; [exact I|right; now left]). subst. inversion NS as [|? ? N1 _]; subst. apply N1. now left.
Qed.
Theorem C31_keep labels i l : nth_error labels i = Some l -> once labels l -> nth_error (relabel_sites true labels) i = Some l.
Proof. intros E O. destruct (relabel_spec true labels i l E) as (s & r & I & R & V). apply (once_group labels l s I) in O. rewrite V, O. reflexivity. Qed.
Theorem C31_ignore labels : (forall l m k, once labels l -> In m labels -> ~ once labels m -> 1 <= k -> l <> m ++ lit "_" ++ dec k) -> NoDup (relabel_sites true labels).
Proof.
  intros H. apply NoDup_nth_error. intros i j L E. rewrite relabel_length in L. destruct (nth_error labels i) as [l|] eqn:EI; [|apply nth_error_None in EI; lia]. destruct (relabel_spec true labels i l EI) as (s & r & I & R & V). rewrite andb_true_r in V. rewrite V in E.
  destruct (nth_error labels j) as [l'|] eqn:EJ; [|apply nth_error_None in EJ; rewrite <- (relabel_length true labels) in EJ; apply nth_error_None in EJ; congruence]. destruct (relabel_spec true labels j l' EJ) as (s' & r' & I' & R' & V'). rewrite andb_true_r in V'. rewrite V' in E. injection E as E.
  pose proof (once_group labels l s I) as O. pose proof (once_group labels l' s' I') as O'. destruct (Nat.eqb_spec (length s) 1) as [K|K], (Nat.eqb_spec (length s') 1) as [K'|K'].
  - subst l'. apply O in K as (x & X). apply X in EI. apply X in EJ. congruence.
  - exfalso. apply (H l l' (Z.of_nat r' + 1)); [now apply O|now apply nth_error_In in EJ|now rewrite <- O'|lia|exact E].
  - exfalso. apply (H l' l (Z.of_nat r + 1)); [now apply O'|now apply nth_error_In in EI|now rewrite <- O|lia|now symmetry].
  - apply new_label_inj in E as [-> ->]. rewrite (group_unique labels _ _ _ I I') in R. congruence.
Qed.
(** C106: with [ignore_uniq] labels need not be unique. *)
Theorem C106_ignore_refuted : exists labels, ~ NoDup (relabel_sites true labels).
Proof. exists [lit "X"; lit "X"; lit "X_1"]. vm_compute. intros N. inversion N as [|? ? A _]; subst. apply A. right. now left. Qed.
(** C110: setting labels has no effect. *)
Theorem C110_labels_refuted : exists labels new r, set_labels labels new = Some r /\ r <> new.
Proof. exists [lit "X"], [lit "Y"]. eexists. split; [reflexivity|discriminate]. Qed.

(** ** Miller indices *)
Definition dot3 (a b : vec) : Q := let '(x, y, z) := a in let '(u, v, w) := b in (x * u + y * v + z * w)%Q.
Lemma inject_ne n : n =? 0 = false -> ~ (inject_Z n == 0)%Q.
Proof. intros H C. apply Z.eqb_neq in H. apply H. change 0%Q with (inject_Z 0) in C. unfold Qeq in C. cbn in C. lia. Qed.
Lemma inv_ne x : ~ (x == 0)%Q -> ~ (1 / x == 0)%Q.
Proof. intros N C. assert (E : (1 == 1 / x * x)%Q) by (field; exact N). rewrite C in E. discriminate. Qed.
Lemma mul_ne x y : ~ (x == 0)%Q -> ~ (y == 0)%Q -> ~ (x * y == 0)%Q.
Proof. intros A B C. apply Qmult_integral in C as [C|C]; contradiction. Qed.
(** The points lie in the plane h x + k y + l z = 1 and span it. *)
Lemma plane_points_spec h k l : ~ (h = 0 /\ k = 0 /\ l = 0) -> exists a b c, plane_points h k l = Some (a, b, c) /\
  let f v := dot3 (inject_Z h, inject_Z k, inject_Z l) v in (f a == 1 /\ f b == 1 /\ f c == 1)%Q /\
  exists t, ~ (t == 0)%Q /\ let n := mcross (vsub b a) (vsub c a) in let '(n1, n2, n3) := n in (n1 == t * inject_Z h /\ n2 == t * inject_Z k /\ n3 == t * inject_Z l)%Q.
Proof.
  intros N. unfold plane_points. destruct (h =? 0) eqn:H, (k =? 0) eqn:K, (l =? 0) eqn:L; cbn [option_map or_else copy_add]; [exfalso; lia|..];
    (repeat match goal with E : (?x =? 0) = true |- _ => apply Z.eqb_eq in E; subst x end; repeat match goal with E : (?x =? 0) = false |- _ => apply inject_ne in E end);
    (do 3 eexists; split; [reflexivity|]); cbn [dot3 vsub mcross]; change (inject_Z 0) with 0%Q; (split; [repeat split; field; auto|]).
  - exists (1 / inject_Z l)%Q. split; [apply inv_ne; repeat apply mul_ne; assumption|]. repeat split; field; auto.
  - exists (1 / inject_Z k)%Q. split; [apply inv_ne; repeat apply mul_ne; assumption|]. repeat split; field; auto.
  - exists (1 / (inject_Z k * inject_Z l))%Q. split; [apply inv_ne; repeat apply mul_ne; assumption|]. repeat split; field; auto.
  - exists (1 / inject_Z h)%Q. split; [apply inv_ne; repeat apply mul_ne; assumption|]. repeat split; field; auto.
  - exists (1 / (inject_Z h * inject_Z l))%Q. split; [apply inv_ne; repeat apply mul_ne; assumption|]. repeat split; field; auto.
  - exists (1 / (inject_Z h * inject_Z k))%Q. split; [apply inv_ne; repeat apply mul_ne; assumption|]. repeat split; field; auto.
  - exists (1 / (inject_Z h * inject_Z k * inject_Z l))%Q. split; [apply inv_ne; repeat apply mul_ne; assumption|]. repeat split; field; auto.
Qed.

Lemma cart_cross m u v w : (dot3 (mcross (vmat u m) (vmat v m)) (vmat w m) == det3 m * dot3 (mcross u v) w)%Q.
Proof. destruct m as [[[[a b] c] [[d e] f]] [[g h] i]], u as [[u1 u2] u3], v as [[v1 v2] v3], w as [[w1 w2] w3]. unfold det3, dot3, mcross, vmat. ring. Qed.
Lemma vsub_vmat m u v : veq (vsub (vmat u m) (vmat v m)) (vmat (vsub u v) m).
Proof. destruct m as [[[[a b] c] [[d e] f]] [[g h] i]], u as [[u1 u2] u3], v as [[v1 v2] v3]. unfold veq, vsub, vmat. repeat split; ring. Qed.
Lemma miller_normal_dot m h k l : ~ (h = 0 /\ k = 0 /\ l = 0) -> exists n t, miller_normal m h k l = Some n /\ ~ (t == 0)%Q /\
  forall w, (dot3 n (vmat w m) == t * det3 m * dot3 (inject_Z h, inject_Z k, inject_Z l) w)%Q.
Proof.
  intros N. destruct (plane_points_spec h k l N) as (a & b & c & E & _ & t & T & P). unfold miller_normal. rewrite E. cbn [option_map]. eexists. exists t. split; [reflexivity|]. split; [exact T|]. intros w. pose proof (vsub_vmat m b a) as V1. pose proof (vsub_vmat m c a) as V2. pose proof (cart_cross m (vsub b a) (vsub c a) w) as C.
  destruct (vmat (vsub b a) m) as [[x1 x2] x3], (vmat (vsub c a) m) as [[y1 y2] y3], (vsub (vmat b m) (vmat a m)) as [[p1 p2] p3], (vsub (vmat c m) (vmat a m)) as [[q1 q2] q3], (vmat w m) as [[z1 z2] z3], (mcross (vsub b a) (vsub c a)) as [[n1 n2] n3], w as [[w1 w2] w3]. unfold veq in *. cbn [dot3 mcross] in *. destruct V1 as (-> & -> & ->), V2 as (-> & -> & ->), P as (-> & -> & ->) in C. rewrite C. ring.
Qed.

(** C33: for nonzero indices [get_cart_from_miller] is perpendicular to every direction of the plane, in any lattice;
    for a lattice of nonzero volume it is not zero; and it has length one. *)
Theorem C33_perpendicular root m h k l : ~ (h = 0 /\ k = 0 /\ l = 0) -> exists n, get_cart_from_miller root m h k l = Some n /\
  forall u, (dot3 (inject_Z h, inject_Z k, inject_Z l) u == 0)%Q -> (dot3 n (vmat u m) == 0)%Q.
Proof.
  intros N. destruct (miller_normal_dot m h k l N) as (n & t & E & _ & D). unfold get_cart_from_miller. rewrite E. cbn [option_map]. eexists. split; [reflexivity|]. intros u U. specialize (D u). rewrite U in D. destruct n as [[a b] c], (vmat u m) as [[x y] z]. cbn [dot3 vmap] in *. set (r := root _). transitivity ((a * x + b * y + c * z) / r)%Q; [unfold Qdiv; ring|]. rewrite D. unfold Qdiv. ring.
Qed.
(** [root] may be off by a relative error of [e] in its square. *)
Definition near_root (e : Q) (root : Q -> Q) : Prop := (forall x, 0 < x -> (1 - e) * x <= root x * root x /\ root x * root x <= (1 + e) * x)%Q.
Lemma sq_nonneg q : (0 <= q * q)%Q.
Proof. destruct (Qlt_le_dec q 0); [setoid_replace (q * q)%Q with ((- q) * (- q))%Q by ring; apply Qmult_le_0_compat; lra|now apply Qmult_le_0_compat]. Qed.
Lemma sum_sq_zero a b c : (a * a + b * b + c * c == 0 -> a == 0 /\ b == 0 /\ c == 0)%Q.
Proof.
  intros E. pose proof (sq_nonneg a). pose proof (sq_nonneg b). pose proof (sq_nonneg c). assert (SQ : forall q, (q * q == 0 -> q == 0)%Q) by (intros q Q0; apply Qmult_integral in Q0 as [|]; assumption). repeat split; apply SQ; lra.
Qed.
Theorem C33_unit e root m h k l : (0 <= e < 1)%Q -> near_root e root -> ~ (h = 0 /\ k = 0 /\ l = 0) -> ~ (det3 m == 0)%Q ->
  exists n, get_cart_from_miller root m h k l = Some n /\ ((1 - e) * norm2 n <= 1 /\ 1 <= (1 + e) * norm2 n)%Q.
Proof.
  intros E01 RR N V. destruct (miller_normal_dot m h k l N) as (n & t & E & T & D). unfold get_cart_from_miller. rewrite E. cbn [option_map]. eexists. split; [reflexivity|].
  assert (P : ~ (norm2 n == 0)%Q).
  { intros Z0. assert (A : forall u, (dot3 n u == 0)%Q). { destruct n as [[a b] c]. apply sum_sq_zero in Z0 as (A & B & C). intros [[x y] z]. cbn [dot3]. rewrite A, B, C. ring. }
    specialize (D (inject_Z h, inject_Z k, inject_Z l)). rewrite A in D. symmetry in D. apply Qmult_integral in D as [D|D]; [apply Qmult_integral in D as [D|D]; contradiction|]. apply N. cbn [dot3] in D. rewrite <- !inject_Z_mult, <- !inject_Z_plus in D. change 0%Q with (inject_Z 0) in D. assert (X : h * h + k * k + l * l = 0) by (unfold Qeq in D; cbn in D; lia). nia. }
  assert (G : (0 < norm2 n)%Q). { assert (G : (0 <= norm2 n)%Q). { destruct n as [[a b] c]. cbn [norm2]. pose proof (sq_nonneg a). pose proof (sq_nonneg b). pose proof (sq_nonneg c). lra. } apply Qle_lteq in G as [G|G]; [exact G|]. exfalso. apply P. now symmetry. }
  destruct (RR _ G) as [R1 R2]. set (r := root (norm2 n)) in *. clearbody r. assert (S : (0 < r * r)%Q) by (apply Qlt_le_trans with ((1 - e) * norm2 n)%Q; [apply Qmult_lt_0_compat; lra|exact R1]).
  assert (R0 : ~ (r == 0)%Q) by (intros C; rewrite C in S; discriminate S || (apply (Qlt_irrefl 0); rewrite <- (Qmult_0_l 0) at 2; exact S)).
  assert (F : (norm2 (vmap (fun x => x / r) n) * (r * r) == norm2 n)%Q) by (destruct n as [[a b] c]; cbn [norm2 vmap]; field; exact R0). set (w := norm2 (vmap _ n)) in *. clearbody w. split; apply (Qmult_le_r _ _ (r * r)); try exact S; rewrite <- Qmult_assoc, F, Qmult_1_l; assumption.
Qed.
(** There is such a root. *)
Definition sqrt20 (x : Q) : Q := Z.sqrt (Qnum x * Zpos (Qden x) * 400) # (Qden x * 20).
Example C33_root : near_root (1 # 10) sqrt20.
Proof.
  intros [p q] H. unfold Qlt in H. cbn in H. rewrite Z.mul_1_r in H. unfold sqrt20. cbn [Qnum Qden]. set (N := p * Zpos q * 400). assert (G : 400 <= N) by (unfold N; nia). pose proof (Z.sqrt_spec N ltac:(lia)) as [A B]. set (s := Z.sqrt N) in *. assert (S20 : 20 <= s) by (apply Z.sqrt_le_square; lia). unfold Qle, Qmult, Qminus, Qplus, Qopp. cbn [Qnum Qden]. rewrite !Pos2Z.inj_mul. assert (X : 9 * N <= 10 * (s * s)) by nia. subst N. clearbody s. clear G S20 B. set (z := Zpos q) in *. assert (Q0 : 0 < z) by (unfold z; lia). clearbody z. pose proof (Z.mul_le_mono_nonneg_r _ _ z (Z.lt_le_incl _ _ Q0) X) as X1. pose proof (Z.mul_le_mono_nonneg_r _ _ z (Z.lt_le_incl _ _ Q0) A) as X2. assert (X3 : 0 <= p * z * z) by nia. clear X A. split; lia.
Qed.
(** C107: the vector need not point along the reciprocal lattice vector. *)
Theorem C107_direction_refuted : exists m h k l n, miller_normal m h k l = Some n /\ (0 < det3 m)%Q /\ (dot3 n (vmat (inject_Z h, inject_Z k, inject_Z l) m) < 0)%Q.
Proof. exists ((1, 0, 0), (0, 1, 0), (0, 0, 1))%Q, (-1), 1, 1. eexists. split; [reflexivity|]. split; vm_compute; reflexivity. Qed.
(** Indices (0,0,0) fail. *)
Theorem C33_zero root m : get_cart_from_miller root m 0 0 0 = None.
Proof. reflexivity. Qed.

(** ** Coordinates *)
(** C108: the constructor moves every coordinate by whole cells into [0,1). *)
Theorem C108_wrapped (coords : list vec) i (v : vec) : nth_error coords i = Some v -> exists a b c w, nth_error (fst (init_coords coords)) i = Some w /\
  let '(x, y, z) := v in let '(x', y', z') := w in
  (0 <= x' < 1 /\ 0 <= y' < 1 /\ 0 <= z' < 1 /\ x' == x + inject_Z a /\ y' == y + inject_Z b /\ z' == z + inject_Z c)%Q.
Proof.
  intros E. unfold init_coords. cbn [fst]. rewrite nth_error_map, E. cbn [option_map]. destruct v as [[x y] z]. exists (- Qfloor x), (- Qfloor y), (- Qfloor z). eexists. split; [reflexivity|]. cbn [vmap]. pose proof (mod1_range x). pose proof (mod1_range y). pose proof (mod1_range z). repeat split; try apply mod1_range; unfold mod1; rewrite inject_Z_opp; ring.
Qed.
Theorem C108_kept (coords : list vec) i (v : vec) : nth_error coords i = Some v -> (let '(x, y, z) := v in 0 <= x < 1 /\ 0 <= y < 1 /\ 0 <= z < 1)%Q ->
  exists w, nth_error (fst (init_coords coords)) i = Some w /\ veq v w.
Proof.
  intros E R. unfold init_coords. cbn [fst]. rewrite nth_error_map, E. cbn [option_map]. eexists. split; [reflexivity|]. destruct v as [[x y] z]. cbn [vmap veq]. assert (K : forall q, (0 <= q < 1 -> q == mod1 q)%Q). { intros q Q. unfold mod1. assert (F : Qfloor q = 0). { pose proof (Qfloor_le q). pose proof (Qlt_floor q). destruct Q as [Q1 Q2]. assert (A : (inject_Z (Qfloor q) < inject_Z 1)%Q) by (change (inject_Z 1) with 1%Q; lra). assert (B : (inject_Z 0 < inject_Z (Qfloor q + 1))%Q) by (change (inject_Z 0) with 0%Q; lra). rewrite <- Zlt_Qlt in A, B. lia. } rewrite F. change (inject_Z 0) with 0%Q. ring. }
  destruct R as (A & B & C). repeat split; now apply K.
Qed.
(** C109: the caller's array is changed too. *)
Theorem C109_mutates_refuted : exists coords, snd (init_coords coords) <> coords.
Proof. exists [(3 # 2, 0, 0)%Q]. vm_compute. discriminate. Qed.
(** C111: the documented N×3 array of [merge_frac_coords] fails. *)
Theorem C111_merge_refuted : forall v l, merge_frac_coords (Many (v :: l)) = None.
Proof. reflexivity. Qed.

(** ** Examples and assumptions *)
Example C31_example : map string_of_list_ascii (relabel_sites false [lit "Na"; lit "Cl"; lit "Na"; lit "Na"; lit "Cl_1"]) = ["Na_1"; "Cl_1"; "Na_2"; "Na_3"; "Cl_1_1"]%string.
Proof. vm_compute. reflexivity. Qed.
Example C31_example_ignore : map string_of_list_ascii (relabel_sites true [lit "Na"; lit "Cl"; lit "Na"; lit "Na"]) = ["Na_1"; "Cl"; "Na_2"; "Na_3"]%string.
Proof. vm_compute. reflexivity. Qed.
Example C33_example : option_map (vmap Qred) (miller_normal ((2, 0, 0), (1, 3, 0), (0, 1, 4))%Q 1 2 (-1)) = Some (-6, -6, 9 # 2)%Q.
Proof. vm_compute. reflexivity. Qed.
Example C108_example : map (vmap Qred) (fst (init_coords [(-(1 # 4), 5 # 2, 1)%Q])) = [(3 # 4, 1 # 2, 0)%Q].
Proof. vm_compute. reflexivity. Qed.
Print Assumptions C31_unique.
Print Assumptions C31_keep.
Print Assumptions C31_ignore.
Print Assumptions C33_perpendicular.
Print Assumptions C33_unit.
Print Assumptions C33_zero.
Print Assumptions C108_wrapped.
Print Assumptions C108_kept.
Print Assumptions C106_ignore_refuted.
Print Assumptions C107_direction_refuted.
Print Assumptions C109_mutates_refuted.
Print Assumptions C110_labels_refuted.
Print Assumptions C111_merge_refuted.
