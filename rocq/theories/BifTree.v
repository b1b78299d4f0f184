(** The list of domains built from the levels is a forest. *)
From Coq Require Import QArith Sorting.Sorted Lqa.
From Verif Require Import Base GridModel NeighModel RootsModel RootsSpec RootsProofs UnionModel UnionSpec UnionProofs
  BifModel BifSpec BifProofs BifLevels.
Local Open Scope Z_scope.

(** ** Consequences of the chain of levels *)
Definition lv0 : level := Lv 0 [].
Definition at_lv (ls : list level) (j : nat) : list dom := lv_doms (nth j ls lv0).

Lemma chain_mono prev u ls u' : chain prev u ls u' -> (u <= u')%nat.
Proof. induction 1 as [|prev u l ls u' u'' (S1 & _) C IH]; lia. Qed.

Lemma chain_mid prev u ls u' : chain prev u ls u' -> forall c t, (c < length ls)%nat -> In t (at_lv ls c) -> (d_id t < u)%nat ->
  In t prev /\ forall b, (b <= c)%nat -> In t (at_lv ls b).
Proof.
  induction 1 as [|prev u l ls u' u'' (S1 & S2 & S3 & S4 & S5) C IH]; intros c t Hc Ht Hu; [cbn in Hc; lia|].
  destruct c as [|c].
  - cbn in Ht. destruct (S4 t Ht) as [X|[X _]]; [|lia]. split; [exact X|]. intros b Hb. replace b with 0%nat by lia. exact Ht.
  - cbn in Hc. destruct (IH c t ltac:(lia) Ht ltac:(lia)) as [P Q]. split.
    + destruct (S4 t P) as [X|[X _]]; [exact X|lia].
    + intros [|b] Hb; [exact P|]. apply Q. lia.
Qed.

Lemma chain_contig prev u ls u' : chain prev u ls u' -> forall a b c t t', (a <= b <= c)%nat -> (c < length ls)%nat ->
  In t (at_lv ls c) -> In t' (at_lv ls a) -> d_id t = d_id t' -> t = t' /\ In t (at_lv ls b).
Proof.
  induction 1 as [|prev u l ls u' u'' (S1 & S2 & S3 & S4 & S5) C IH]; intros a b c t t' Habc Hc Ht Ht' E; [cbn in Hc; lia|].
  destruct a as [|a].
  - cbn in Ht'. destruct c as [|c].
    + cbn in Ht. assert (t = t') as -> by (eapply map_nodup_inj; eauto). split; [reflexivity|]. now replace b with 0%nat by lia.
    + cbn in Hc. destruct (chain_mid _ _ _ _ C c t ltac:(lia) Ht) as [P Q]; [rewrite E; now apply S3|].
      assert (t = t') as -> by (eapply map_nodup_inj; eauto). split; [reflexivity|].
      destruct b as [|b]; [exact Ht'|]. apply Q. lia.
  - destruct c as [|c]; [lia|]. destruct b as [|b]; [lia|]. cbn in Hc. apply (IH a b c); auto; lia.
Qed.

Lemma chain_nodup prev u ls u' : chain prev u ls u' -> forall j, NoDup (map d_id (at_lv ls j)).
Proof.
  induction 1 as [|prev u l ls u' u'' (S1 & S2 & S3 & S4 & S5) C IH]; intros j.
  - unfold at_lv. destruct j; constructor.
  - destruct j as [|j]; [exact S2|apply IH].
Qed.

Lemma chain_lt prev u ls u' : chain prev u ls u' -> forall j t, In t (at_lv ls j) -> (d_id t < u')%nat.
Proof.
  induction 1 as [|prev u l ls u' u'' (S1 & S2 & S3 & S4 & S5) C IH]; intros j t Ht.
  - unfold at_lv in Ht. destruct j; destruct Ht.
  - destruct j as [|j]; [|eapply IH; eauto]. cbn in Ht. pose proof (S3 t Ht). pose proof (chain_mono _ _ _ _ C). lia.
Qed.

Lemma chain_all prev u ls u' : chain prev u ls u' -> forall k, (u <= k < u')%nat ->
  exists j t, (j < length ls)%nat /\ In t (at_lv ls j) /\ d_id t = k.
Proof.
  induction 1 as [|prev u l ls u' u'' (S1 & S2 & S3 & S4 & S5) C IH]; intros k Hk; [lia|].
  destruct (Nat.lt_ge_cases k u') as [HL|HL].
  - destruct (S5 k ltac:(lia)) as (t & Ht & Et). exists 0%nat, t. cbn. split; [lia|]. auto.
  - destruct (IH k ltac:(lia)) as (j & t & Hj & Ht & Et). exists (S j), t. cbn. split; [lia|]. auto.
Qed.

(** Adjacent levels: a domain with the same basins and dimensionality keeps its id. *)
Lemma chain_keep prev u ls u' : chain prev u ls u' -> forall j t t', (S j < length ls)%nat ->
  In t (at_lv ls (S j)) -> In t' (at_lv ls j) -> d_group t = d_group t' -> d_dim t = d_dim t' ->
  (forall j d d', In d (at_lv ls j) -> In d' (at_lv ls j) -> d_group d = d_group d' -> d = d') -> t = t'.
Proof.
  induction 1 as [|prev u l ls u' u'' (S1 & S2 & S3 & S4 & S5) C IH]; intros j t t' Hj Ht Ht' G D INJ; [cbn in Hj; lia|].
  destruct j as [|j].
  - cbn in Ht'. inversion C as [|? ? l1 ls1 u1' u1'' (T1 & T2 & T3 & T4 & T5) C1]; subst; [cbn in Hj; lia|].
    cbn in Ht. destruct (T4 t Ht) as [X|[_ X]].
    + apply (INJ 0%nat); auto.
    + exfalso. apply (X t' Ht'); auto.
  - cbn in Hj. eapply (IH j); eauto; [lia|]. intros j' d d'. apply (INJ (S j')).
Qed.

(** ** Building the list of domains *)
Lemma contains_spec big small : contains big small = true <-> incl small big.
Proof.
  unfold contains. rewrite forallb_forall. split.
  - intros H x Hx. specialize (H x Hx). apply existsb_exists in H as (y & Hy & E). apply Nat.eqb_eq in E. now subst.
  - intros H x Hx. apply existsb_exists. exists x. split; [now apply H|apply Nat.eqb_refl].
Qed.

Lemma find_parent_spec g recs :
  match find_parent g (rev recs) with
  | Some p => exists r, nth_error recs p = Some r /\ incl g (b_basins r) /\
      forall q r', nth_error recs q = Some r' -> incl g (b_basins r') -> (q <= p)%nat
  | None => forall r, In r recs -> ~ incl g (b_basins r)
  end.
Proof.
  induction recs as [|r recs IH] using rev_ind; [cbn; auto|]. rewrite rev_app_distr. cbn [rev app find_parent].
  destruct (contains (b_basins r) g) eqn:C.
  - apply contains_spec in C. rewrite rev_length. exists r. split; [rewrite nth_error_app2, Nat.sub_diag by lia; reflexivity|].
    split; [exact C|]. intros q r' Hq _. assert (q < length (recs ++ [r]))%nat by (apply nth_error_Some; congruence).
    rewrite app_length in H. cbn in H. lia.
  - assert (NC : ~ incl g (b_basins r)) by (intros X; apply contains_spec in X; congruence).
    destruct (find_parent g (rev recs)) as [p|].
    + destruct IH as (r0 & H0 & I0 & M0). exists r0. assert (p < length recs)%nat by (apply nth_error_Some; congruence).
      split; [rewrite nth_error_app1 by lia; exact H0|]. split; [exact I0|]. intros q r' Hq Iq.
      destruct (Nat.lt_ge_cases q (length recs)) as [HL|HL].
      * rewrite nth_error_app1 in Hq by lia. now apply (M0 q r').
      * rewrite nth_error_app2 in Hq by lia. destruct (q - length recs)%nat as [|d] eqn:Ed; [|destruct d; discriminate].
        injection Hq as <-. contradiction.
    + intros r' Hr'. apply in_app_or in Hr' as [Hr'|[<-|[]]]; [now apply IH|exact NC].
Qed.

Lemma skipn_next {A} (x : A) r : forall k l, skipn k l = x :: r -> skipn (S k) l = r.
Proof.
  induction k as [|k IH]; intros l H; [destruct l; [discriminate|]; cbn in *; congruence|].
  destruct l as [|a l]; [discriminate|]. cbn [skipn] in H. change (skipn (S k) l = r). now apply IH.
Qed.

Section TREE.
  Variable maxref : nat -> Q.
  Variable min_data : Q.
  Variable unique : nat.
  Variable Ls : list level.
  Notation doms j := (at_lv Ls j).
  Notation value j := (lv_value (nth j Ls lv0)).
  Hypothesis H1 : forall j t t' x, In t (doms j) -> In t' (doms j) -> In x (d_group t) -> In x (d_group t') -> t = t'.
  Hypothesis HN : forall j t, In t (doms j) -> exists x, In x (d_group t).
  Hypothesis H2 : forall j t, (S j < length Ls)%nat -> In t (doms (S j)) -> exists t', In t' (doms j) /\ incl (d_group t) (d_group t').
  Hypothesis H3 : forall a b c t t', (a <= b <= c)%nat -> (c < length Ls)%nat -> In t (doms c) -> In t' (doms a) ->
    d_id t = d_id t' -> t = t' /\ In t (doms b).
  Hypothesis H4 : forall j, NoDup (map d_id (doms j)).
  Hypothesis H5 : forall j t, In t (doms j) -> (d_id t < unique)%nat.

  Definition rec_of (recs : list bdom) (i : nat) : bdom := nth i recs (BD [] 0 None 0 (-1)).

  (** [gh] gives, for each recorded domain, the domain of the levels it stands for and
      the (lowest) level at which it appears. *)
  Record tree_inv (K : nat) (recs : list bdom) (gh : list (dom * nat)) : Prop := TI {
    ti_len : length gh = length recs;
    ti_rec : forall i t b, nth_error gh i = Some (t, b) ->
      b_basins (rec_of recs i) = d_group t /\ b_dim (rec_of recs i) = d_dim t;
    ti_sorted : forall i i' t b t' b', (i < i')%nat -> nth_error gh i = Some (t, b) -> nth_error gh i' = Some (t', b') -> (b <= b')%nat;
    ti_birth : forall i t b, nth_error gh i = Some (t, b) -> (b <= K)%nat /\ In t (doms b);
    ti_nodup : NoDup (map (fun x => d_id (fst x)) gh);
    ti_new : forall i t b, nth_error gh i = Some (t, S b) -> ~ In t (doms b);
    ti_root : forall i t, nth_error gh i = Some (t, 0%nat) -> b_parent (rec_of recs i) = -1 /\ b_min (rec_of recs i) = min_data;
    ti_parent : forall i t b, nth_error gh i = Some (t, S b) -> exists p tp bp, (p < i)%nat /\
      b_parent (rec_of recs i) = Z.of_nat p /\ nth_error gh p = Some (tp, bp) /\ (bp <= b)%nat /\ In tp (doms b) /\
      incl (d_group t) (d_group tp) /\ b_min (rec_of recs i) = value b;
    ti_max : forall i t b, nth_error gh i = Some (t, b) ->
      (exists c, (c < length recs)%nat /\ b_parent (rec_of recs c) = Z.of_nat i /\ b_max (rec_of recs i) = Some (b_min (rec_of recs c))) \/
      ((forall c, (c < length recs)%nat -> b_parent (rec_of recs c) <> Z.of_nat i) /\
       b_max (rec_of recs i) = match b, d_group t with S _, [x] => Some (maxref x) | _, _ => None end) }.

  Definition covered (gh : list (dom * nat)) (j : nat) (ts : list dom) : Prop :=
    forall t, In t ts -> exists i b, nth_error gh i = Some (t, b) /\ (b <= j)%nat.

  Lemma parent_lt K recs gh c : tree_inv K recs gh -> (c < length recs)%nat ->
    b_parent (rec_of recs c) = -1 \/ (0 <= b_parent (rec_of recs c) < Z.of_nat c).
  Proof.
    intros I Hc. destruct (nth_error gh c) as [[t [|b]]|] eqn:E.
    - left. now apply (ti_root _ _ _ I c t).
    - destruct (ti_parent _ _ _ I c t b E) as (p & tp & bp & Hp & P & _). right. lia.
    - exfalso. apply nth_error_None in E. rewrite (ti_len _ _ _ I) in E. lia.
  Qed.

  Lemma roots_inv : (0 < length Ls)%nat ->
    tree_inv 0 (roots_of min_data (nth 0 Ls lv0)) (map (fun t => (t, 0%nat)) (doms 0)) /\
    covered (map (fun t => (t, 0%nat)) (doms 0)) 0 (doms 0).
  Proof.
    intros HL.
    assert (R : forall i t b, nth_error (map (fun t => (t, 0%nat)) (doms 0)) i = Some (t, b) ->
       b = 0%nat /\ nth_error (doms 0) i = Some t /\
       rec_of (roots_of min_data (nth 0 Ls lv0)) i = BD (d_group t) min_data None (d_dim t) (-1)).
    { intros i t b H. rewrite nth_error_map in H. fold (at_lv Ls 0) in *. destruct (nth_error (doms 0) i) as [t0|] eqn:E; [|discriminate].
      injection H as <- <-. split; [reflexivity|]. split; [reflexivity|]. unfold rec_of, roots_of.
      apply nth_error_nth. rewrite nth_error_map. fold (at_lv Ls 0). rewrite E. reflexivity. }
    split.
    - constructor.
      + unfold roots_of. rewrite !map_length. reflexivity.
      + intros i t b H. destruct (R i t b H) as (_ & _ & ->). auto.
      + intros i i' t b t' b' _ E E'. destruct (R i t b E) as (-> & _), (R i' t' b' E') as (-> & _). lia.
      + intros i t b H. destruct (R i t b H) as (-> & E & _). split; [lia|]. eapply nth_error_In; eauto.
      + rewrite map_map. cbn [fst]. apply H4.
      + intros i t b H. destruct (R i t _ H) as (E & _). discriminate.
      + intros i t H. destruct (R i t _ H) as (_ & _ & ->). auto.
      + intros i t b H. destruct (R i t _ H) as (E & _). discriminate.
      + intros i t b H. right. destruct (R i t b H) as (-> & _ & ->). split; [|reflexivity].
        intros c Hc. unfold roots_of in Hc. rewrite map_length in Hc. fold (at_lv Ls 0) in Hc.
        destruct (nth_error (doms 0) c) as [tc|] eqn:E; [|apply nth_error_None in E; unfold at_lv in *; lia].
        destruct (R c tc 0%nat) as (_ & _ & ->); [rewrite nth_error_map, E; reflexivity|]. cbn. lia.
    - intros t Ht. apply In_nth_error in Ht as (i & Hi). exists i, 0%nat. split; [|lia]. rewrite nth_error_map, Hi. reflexivity.
  Qed.

  Lemma rec_upd recs p v x i : (p < length recs)%nat ->
    rec_of (upd recs p (set_max v (rec_of recs p)) ++ [x]) i =
    if Nat.eqb i (length recs) then x else if Nat.eqb i p then set_max v (rec_of recs p)
    else rec_of recs i.
  Proof.
    intros Hp. unfold rec_of at 1. destruct (Nat.eqb_spec i (length recs)) as [->|N].
    - rewrite app_nth2 by (rewrite upd_length; lia). rewrite upd_length, Nat.sub_diag. reflexivity.
    - destruct (Nat.lt_ge_cases i (length recs)) as [HL|HL].
      + rewrite app_nth1 by (rewrite upd_length; lia). rewrite nth_upd.
        destruct (Nat.eqb_spec p i) as [<-|Np].
        * rewrite Nat.eqb_refl. now replace (Nat.ltb p (length recs)) with true by lia.
        * replace (Nat.eqb i p) with false by lia. reflexivity.
      + replace (Nat.eqb i p) with false by lia. rewrite !nth_overflow; [symmetry; apply nth_overflow; lia|].
        rewrite app_length, upd_length. cbn. lia.
  Qed.

  Lemma add_domain_correct k recs gh pre t : (S k < length Ls)%nat ->
    tree_inv (S k) recs gh -> covered gh k (doms k) ->
    (forall u i, nth_error gh i = Some (u, S k) -> In u pre) ->
    In t (doms (S k)) -> ~ In t pre -> (forall d, In d (doms k) -> d_id d <> d_id t) ->
    exists recs', add_domain maxref unique (value k) t recs = Done recs' /\
      tree_inv (S k) recs' (gh ++ [(t, S k)]).
  Proof.
    intros HK I CV PRE Ht NP NO. pose proof (ti_len _ _ _ I) as LEN.
    assert (NG : forall i b, nth_error gh i <> Some (t, b)).
    { intros i b E. destruct (ti_birth _ _ _ I i t b E) as [B Hb]. destruct (Nat.eq_dec b (S k)) as [->|Nb].
      - apply NP. now apply (PRE t i).
      - destruct (H3 b k (S k) t t ltac:(lia) HK Ht Hb eq_refl) as [_ X]. now apply (NO t X). }
    assert (NGI : ~ In (d_id t) (map (fun x => d_id (fst x)) gh)).
    { intros X. apply in_map_iff in X as ([u b] & E & Hu). cbn in E. apply In_nth_error in Hu as (i & Hi).
      destruct (ti_birth _ _ _ I i u b Hi) as [B Hb].
      destruct (H3 b (S k) (S k) t u ltac:(lia) HK Ht Hb (eq_sym E)) as [<- _]. now apply (NG i b). }
    assert (NDG : NoDup (map (fun x => d_id (fst x)) (gh ++ [(t, S k)]))).
    { rewrite map_app. apply NoDup_app_iff2; [apply I|constructor; [intros []|constructor]|].
      intros x Hx [<-|[]]. contradiction. }
    assert (SZ : (length recs < unique)%nat).
    { assert (LE : (length (map (fun x => d_id (fst x)) (gh ++ [(t, S k)])) <= length (seq 0 unique))%nat).
      { apply NoDup_incl_length; [exact NDG|]. intros x Hx. apply in_seq. rewrite map_app in Hx. apply in_app_or in Hx as [Hx|[<-|[]]].
        - apply in_map_iff in Hx as ([u b] & <- & Hu). apply In_nth_error in Hu as (i & Hi).
          destruct (ti_birth _ _ _ I i u b Hi) as [B Hb]. cbn. pose proof (H5 b u Hb). lia.
        - cbn. pose proof (H5 (S k) t Ht). lia. }
      rewrite map_length, app_length, seq_length in LE. cbn in LE. lia. }
    unfold add_domain. replace (unique <=? length recs)%nat with false by lia.
    destruct (H2 k t HK Ht) as (tp & Htp & INC). destruct (CV tp Htp) as (p0 & bp & Ep0 & Hbp).
    destruct (HN _ _ Ht) as (x0 & X0).
    pose proof (find_parent_spec (d_group t) recs) as FP.
    assert (P0 : nth_error recs p0 = Some (rec_of recs p0)).
    { apply nth_error_nth_lt. rewrite <- LEN. apply nth_error_Some. congruence. }
    destruct (find_parent (d_group t) (rev recs)) as [p|].
    2:{ exfalso. apply (FP (rec_of recs p0)); [eapply nth_error_In; eauto|].
        rewrite (proj1 (ti_rec _ _ _ I p0 tp bp Ep0)). exact INC. }
    destruct FP as (r & Er & Ir & Mr).
    assert (HP : (p < length recs)%nat) by (apply nth_error_Some; congruence).
    assert (RP : rec_of recs p = r) by (apply nth_error_nth; exact Er).
    assert (p = p0) as ->.
    { assert (p0 <= p)%nat as LE.
      { apply (Mr p0 _ P0). rewrite (proj1 (ti_rec _ _ _ I p0 tp bp Ep0)). exact INC. }
      destruct (Nat.eq_dec p p0) as [X|X]; [exact X|]. exfalso.
      destruct (nth_error gh p) as [[t1 b1]|] eqn:Eg; [|apply nth_error_None in Eg; lia].
      destruct (ti_birth _ _ _ I p t1 b1 Eg) as [B1 D1].
      pose proof (ti_sorted _ _ _ I p0 p _ _ _ _ ltac:(lia) Ep0 Eg) as SB.
      assert (I1 : incl (d_group t) (d_group t1)).
      { rewrite <- (proj1 (ti_rec _ _ _ I p t1 b1 Eg)), RP. exact Ir. }
      destruct (Nat.eq_dec b1 (S k)) as [->|Nb].
      - assert (t1 = t) as -> by (apply (H1 (S k) t1 t x0); auto). now apply (NG p (S k)).
      - destruct (ti_birth _ _ _ I p0 tp bp Ep0) as [_ Dp].
        destruct (H3 bp b1 k tp tp ltac:(lia) ltac:(lia) Htp Dp eq_refl) as [_ Tb].
        assert (t1 = tp) as -> by (apply (H1 b1 t1 tp x0); auto).
        apply X. eapply NoDup_nth_error with (l := map (fun x => d_id (fst x)) gh); [apply I|rewrite map_length; lia|].
        rewrite !nth_error_map, Eg, Ep0. reflexivity. }
    eexists. split; [reflexivity|]. change (nth p0 recs _) with (rec_of recs p0).
    set (recs' := upd recs p0 _ ++ [_]).
    set (nw := BD (d_group t) (value k) match d_group t with [b] => Some (maxref b) | _ => None end (d_dim t) (Z.of_nat p0)) in *.
    assert (RU : forall i, rec_of recs' i = if Nat.eqb i (length recs) then nw else if Nat.eqb i p0 then set_max (value k) (rec_of recs p0) else rec_of recs i).
    { intros i. now apply rec_upd. }
    assert (RB : forall i, i <> length recs -> b_basins (rec_of recs' i) = b_basins (rec_of recs i) /\ b_dim (rec_of recs' i) = b_dim (rec_of recs i) /\
       b_parent (rec_of recs' i) = b_parent (rec_of recs i) /\ b_min (rec_of recs' i) = b_min (rec_of recs i)).
    { intros i Hi. rewrite RU. replace (Nat.eqb i (length recs)) with false by lia.
      destruct (Nat.eqb_spec i p0) as [->|]; cbn; auto. }
    assert (RN : rec_of recs' (length recs) = nw) by (rewrite RU, Nat.eqb_refl; reflexivity).
    assert (GI : forall i u b, nth_error (gh ++ [(t, S k)]) i = Some (u, b) ->
       (i < length recs /\ nth_error gh i = Some (u, b))%nat \/ (i = length recs /\ u = t /\ b = S k)).
    { intros i u b E. destruct (Nat.lt_ge_cases i (length gh)) as [HL|HL].
      - rewrite nth_error_app1 in E by lia. left. split; [lia|exact E].
      - rewrite nth_error_app2 in E by lia. destruct (i - length gh)%nat as [|d] eqn:Ed; [|destruct d; discriminate].
        injection E as <- <-. right. split; [lia|auto]. }
    assert (LR : length recs' = S (length recs)) by (unfold recs'; rewrite app_length, upd_length; cbn; lia).
    constructor.
    - rewrite app_length, LR. cbn. lia.
    - intros i u b E. destruct (GI i u b E) as [[Hi E']|(-> & -> & ->)].
      + destruct (RB i ltac:(lia)) as (-> & -> & _). now apply (ti_rec _ _ _ I i u b).
      + rewrite RN. auto.
    - intros i i' u b u' b' Hii E E'. destruct (GI i u b E) as [[Hi E1]|(-> & -> & ->)], (GI i' u' b' E') as [[Hi' E1']|(-> & -> & ->)]; try lia.
      + now apply (ti_sorted _ _ _ I i i' u b u' b').
      + now apply (ti_birth _ _ _ I i u b).
    - intros i u b E. destruct (GI i u b E) as [[Hi E']|(-> & -> & ->)]; [now apply (ti_birth _ _ _ I i u b)|]. split; [lia|exact Ht].
    - exact NDG.
    - intros i u b E. destruct (GI i u _ E) as [[Hi E']|(-> & -> & [= ->])]; [now apply (ti_new _ _ _ I i u b)|].
      intros X. now apply (NO t X).
    - intros i u E. destruct (GI i u _ E) as [[Hi E']|(_ & _ & ?)]; [|discriminate].
      destruct (RB i ltac:(lia)) as (_ & _ & -> & ->). now apply (ti_root _ _ _ I i u).
    - intros i u b E. destruct (GI i u _ E) as [[Hi E']|(-> & -> & [= ->])].
      + destruct (ti_parent _ _ _ I i u b E') as (q & tq & bq & A1 & A2 & A3 & A4 & A5 & A6 & A7).
        exists q, tq, bq. destruct (RB i ltac:(lia)) as (_ & _ & -> & ->).
        split; [exact A1|]. split; [exact A2|]. split; [rewrite nth_error_app1 by lia; exact A3|]. auto.
      + exists p0, tp, bp. rewrite RN. split; [exact HP|]. split; [reflexivity|]. split; [rewrite nth_error_app1 by lia; exact Ep0|]. auto.
    - intros i u b E. rewrite LR. destruct (GI i u b E) as [[Hi E']|(-> & -> & ->)].
      + destruct (Nat.eq_dec i p0) as [->|Ni].
        * left. exists (length recs). split; [lia|]. rewrite RN, RU. replace (Nat.eqb p0 (length recs)) with false by lia.
          rewrite Nat.eqb_refl. auto.
        * assert (rec_of recs' i = rec_of recs i) as ->.
          { rewrite RU. replace (Nat.eqb i (length recs)) with false by lia. now replace (Nat.eqb i p0) with false by lia. }
          destruct (ti_max _ _ _ I i u b E') as [(c & Hc & C1 & C2)|[C1 C2]].
          -- left. exists c. split; [lia|]. destruct (RB c ltac:(lia)) as (_ & _ & -> & ->). auto.
          -- right. split; [|exact C2]. intros c Hc. destruct (Nat.eq_dec c (length recs)) as [->|Nc].
             ++ rewrite RN. cbn. lia.
             ++ destruct (RB c Nc) as (_ & _ & -> & _). apply C1. lia.
      + right. rewrite RN. split; [|reflexivity]. intros c Hc. destruct (Nat.eq_dec c (length recs)) as [->|Nc].
        * rewrite RN. cbn. lia.
        * destruct (RB c Nc) as (_ & _ & -> & _). pose proof (parent_lt _ _ _ c I ltac:(lia)). lia.
  Qed.

  Lemma add_level_correct k : (S k < length Ls)%nat -> forall rest pre recs gh, doms (S k) = pre ++ rest ->
    tree_inv (S k) recs gh -> covered gh k (doms k) -> covered gh (S k) pre ->
    (forall u i, nth_error gh i = Some (u, S k) -> In u pre) ->
    exists recs' gh', add_level maxref unique (value k) (doms k) rest recs = Done recs' /\
      tree_inv (S k) recs' gh' /\ covered gh' (S k) (doms (S k)) /\
      (exists ext, gh' = gh ++ ext).
  Proof.
    intros HK. induction rest as [|t rest IH]; intros pre recs gh ED I CV CP PRE; cbn [add_level].
    - rewrite app_nil_r in ED. exists recs, gh. split; [reflexivity|]. split; [exact I|].
      split; [now rewrite ED|]. exists []. now rewrite app_nil_r.
    - assert (Ht : In t (doms (S k))) by (rewrite ED; apply in_or_app; right; now left).
      assert (NP : ~ In t pre).
      { intros X. pose proof (NoDup_map_inv _ _ (H4 (S k))) as ND. rewrite ED in ND.
        apply NoDup_remove_2 in ND. apply ND. apply in_or_app. now left. }
      destruct (existsb (fun d => Nat.eqb (d_id d) (d_id t)) (doms k)) eqn:X.
      + apply existsb_exists in X as (d & Hd & Ed). apply Nat.eqb_eq in Ed.
        destruct (H3 k (S k) (S k) t d ltac:(lia) HK Ht Hd (eq_sym Ed)) as [-> _].
        destruct (IH (pre ++ [d]) recs gh) as (recs' & gh' & R); auto.
        * now rewrite <- app_assoc.
        * intros u Hu. apply in_app_or in Hu as [Hu|[<-|[]]]; [now apply CP|].
          destruct (CV d Hd) as (i & b & E & B). exists i, b. split; [exact E|lia].
        * intros u i E. apply in_or_app. left. now apply (PRE u i).
        * exists recs', gh'. exact R.
      + assert (NO : forall d, In d (doms k) -> d_id d <> d_id t).
        { intros d Hd E. assert (existsb (fun d => Nat.eqb (d_id d) (d_id t)) (doms k) = true); [|congruence].
          apply existsb_exists. exists d. split; [exact Hd|]. now apply Nat.eqb_eq. }
        destruct (add_domain_correct k recs gh pre t HK I CV PRE Ht NP NO) as (recs1 & E1 & I1). rewrite E1. cbn [obind].
        assert (LIFT : forall j ts, covered gh j ts -> covered (gh ++ [(t, S k)]) j ts).
        { intros j ts CC u Hu. destruct (CC u Hu) as (i & b & E & B). exists i, b. split; [|exact B].
          rewrite nth_error_app1; [exact E|]. apply nth_error_Some. congruence. }
        destruct (IH (pre ++ [t]) recs1 (gh ++ [(t, S k)])) as (recs' & gh' & E2 & I2 & C2 & (ext & X2)).
        * now rewrite <- app_assoc.
        * exact I1.
        * now apply LIFT.
        * intros u Hu. apply in_app_or in Hu as [Hu|[<-|[]]]; [now apply (LIFT _ _ CP)|].
          exists (length gh), (S k). split; [|lia]. rewrite nth_error_app2, Nat.sub_diag by lia. reflexivity.
        * intros u i E. apply in_or_app. destruct (Nat.lt_ge_cases i (length gh)) as [HL|HL].
          -- rewrite nth_error_app1 in E by lia. left. now apply (PRE u i).
          -- rewrite nth_error_app2 in E by lia. destruct (i - length gh)%nat as [|d]; [|destruct d; discriminate].
             injection E as <-. right. now left.
        * exists recs', gh'. split; [exact E2|]. split; [exact I2|]. split; [exact C2|].
          exists ((t, S k) :: ext). rewrite X2, <- app_assoc. reflexivity.
  Qed.

  Lemma inv_weaken K recs gh : tree_inv K recs gh -> tree_inv (S K) recs gh.
  Proof.
    intros I. constructor; try apply I. intros i t b E. destruct (ti_birth _ _ _ I i t b E) as [B D]. split; [lia|exact D].
  Qed.

  Lemma covered_ext gh ext j ts : covered gh j ts -> covered (gh ++ ext) j ts.
  Proof.
    intros CC u Hu. destruct (CC u Hu) as (i & b & E & B). exists i, b. split; [|exact B].
    rewrite nth_error_app1; [exact E|]. apply nth_error_Some. congruence.
  Qed.

  Lemma add_levels_correct : forall rest k recs gh, skipn (S k) Ls = rest -> (k < length Ls)%nat ->
    tree_inv k recs gh -> (forall j, (j <= k)%nat -> covered gh j (doms j)) ->
    exists recs' gh', add_levels maxref unique (nth k Ls lv0) rest recs = Done recs' /\
      tree_inv (length Ls - 1) recs' gh' /\ (forall j, (j < length Ls)%nat -> covered gh' j (doms j)).
  Proof.
    induction rest as [|l rest IH]; intros k recs gh SK HK I CV; cbn [add_levels].
    - assert (length Ls = S k).
      { assert (length (skipn (S k) Ls) = 0%nat) by now rewrite SK. rewrite skipn_length in H. lia. }
      exists recs, gh. split; [reflexivity|]. split; [now replace (length Ls - 1)%nat with k by lia|].
      intros j Hj. apply CV. lia.
    - assert (HK' : (S k < length Ls)%nat).
      { assert (length (skipn (S k) Ls) = S (length rest)) by now rewrite SK. rewrite skipn_length in H. lia. }
      assert (EL : nth (S k) Ls lv0 = l).
      { rewrite <- (firstn_skipn (S k) Ls) at 1. rewrite SK, app_nth2 by (rewrite firstn_length; lia).
        rewrite firstn_length. replace (S k - Nat.min (S k) (length Ls))%nat with 0%nat by lia. reflexivity. }
      destruct (add_level_correct k HK' (doms (S k)) [] recs gh eq_refl (inv_weaken _ _ _ I) (CV k (le_n k))) as (recs1 & gh1 & E1 & I1 & C1 & (ext & X1)).
      { intros u []. }
      { intros u i E. exfalso. destruct (ti_birth _ _ _ I i u (S k) E). lia. }
      unfold at_lv at 1 2 in E1. rewrite EL in E1. rewrite E1. cbn [obind].
      destruct (IH (S k) recs1 gh1) as (recs' & gh' & E2 & R); auto.
      + eapply skipn_next; eauto.
      + intros j Hj. destruct (Nat.eq_dec j (S k)) as [->|N]; [exact C1|]. rewrite X1. apply covered_ext. apply CV. lia.
      + rewrite EL in E2. exists recs', gh'. auto.
  Qed.

  Theorem tree_correct : Ls <> [] -> exists recs gh, organise maxref min_data unique (rev Ls) = Done recs /\
    tree_inv (length Ls - 1) recs gh /\ (forall j, (j < length Ls)%nat -> covered gh j (doms j)).
  Proof.
    intros NE. unfold organise. rewrite rev_involutive.
    assert (HL : (0 < length Ls)%nat) by (destruct Ls; [congruence|cbn; lia]).
    destruct (roots_inv HL) as [I C].
    pose proof (add_levels_correct (skipn 1 Ls) 0 _ _ eq_refl HL I) as A.
    destruct A as (recs & gh & E & R).
    { intros j Hj. replace j with 0%nat by lia. exact C. }
    exists recs, gh. split; [|exact R]. destruct Ls as [|l t]; [congruence|]. exact E.
  Qed.
End TREE.
