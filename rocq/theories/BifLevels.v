(** Identities of the domains while the value is lowered. *)
From Coq Require Import QArith Sorting.Sorted Lqa.
From Verif Require Import Base GridModel NeighModel RootsModel RootsSpec RootsProofs UnionModel UnionSpec UnionProofs
  BifModel BifSpec BifProofs.
Local Open Scope Z_scope.

Lemma same_group_spec g h : same_group g h = true <-> g = h.
Proof. unfold same_group. destruct (list_eq_dec Nat.eq_dec g h); split; congruence. Qed.

Lemma assign_ids_spec prev : forall groups u ids u' same, assign_ids groups prev u = (ids, u', same) ->
  length ids = length groups /\ (u <= u')%nat /\
  (forall g id, In (g, id) (combine groups ids) ->
     (exists d, In d prev /\ d_group d = g /\ d_id d = id) \/
     ((forall d, In d prev -> d_group d <> g) /\ (u <= id < u')%nat)) /\
  (forall k, (u <= k < u')%nat -> In k ids) /\
  (NoDup groups -> (forall d d', In d prev -> In d' prev -> d_id d = d_id d' -> d = d') ->
     (forall d, In d prev -> (d_id d < u)%nat) -> NoDup ids) /\
  same = Nat.eqb u' u.
Proof.
  induction groups as [|g t IH]; intros u ids u' same H; cbn [assign_ids] in H.
  - injection H as <- <- <-. split; [reflexivity|]. split; [lia|]. split; [intros g id []|]. split; [intros k Hk; lia|].
    split; [constructor|]. now rewrite Nat.eqb_refl.
  - destruct (find (fun d => same_group (d_group d) g) prev) as [d|] eqn:F.
    + apply find_some in F as [Hd Hg]. apply same_group_spec in Hg.
      destruct (assign_ids t prev u) as [[ids0 u0] same0] eqn:E0. injection H as <- <- <-.
      destruct (IH _ _ _ _ E0) as (L & U & S & FR & ND & SM).
      split; [cbn; lia|]. split; [exact U|]. split; [|split; [|split; [|exact SM]]].
      * intros g' id [[= <- <-]|H]; [left; exists d; auto|]. now apply S.
      * intros k Hk. right. now apply FR.
      * intros NG INJ LT. inversion NG as [|? ? NI NG']; subst. constructor; [|now apply ND].
        intros HI. apply In_nth_error in HI as (m & Hm).
        assert (m < length t)%nat by (rewrite <- L; apply nth_error_Some; congruence).
        assert (HC : In (nth m t [], d_id d) (combine t ids0)).
        { apply nth_error_nth with (d := 0%nat) in Hm. rewrite <- Hm, <- combine_nth by lia. apply nth_In. rewrite combine_length. lia. }
        destruct (S _ _ HC) as [(d' & Hd' & G' & I')|[_ R]]; [|pose proof (LT d Hd); lia].
        rewrite (INJ d' d Hd' Hd I') in G'. apply NI. rewrite G'. now apply nth_In.
    + destruct (assign_ids t prev (Datatypes.S u)) as [[ids0 u0] same0] eqn:E0. injection H as <- <- <-.
      destruct (IH _ _ _ _ E0) as (L & U & S & FR & ND & SM).
      pose proof (find_none _ _ F) as FN.
      assert (NF : forall d, In d prev -> d_group d <> g).
      { intros d Hd X. specialize (FN d Hd). cbn in FN. apply same_group_spec in X. congruence. }
      split; [cbn; lia|]. split; [lia|]. split; [|split; [|split]].
      * intros g' id [[= <- <-]|H]; [right; split; [exact NF|lia]|]. destruct (S _ _ H) as [X|[X Y]]; [now left|].
        right. split; [exact X|lia].
      * intros k Hk. destruct (Nat.eq_dec k u) as [->|N]; [now left|]. right. apply FR. lia.
      * intros NG INJ LT. inversion NG as [|? ? NI NG']; subst. constructor.
        2:{ apply ND; auto. intros d Hd. specialize (LT d Hd). lia. }
        intros HI. apply In_nth_error in HI as (m & Hm).
        assert (m < length t)%nat by (rewrite <- L; apply nth_error_Some; congruence).
        assert (HC : In (nth m t [], u) (combine t ids0)).
        { apply nth_error_nth with (d := 0%nat) in Hm. rewrite <- Hm, <- combine_nth by lia. apply nth_In. rewrite combine_length. lia. }
        destruct (S _ _ HC) as [(d' & Hd' & G' & I')|[_ R]]; [|lia]. pose proof (LT d' Hd'). lia.
      * symmetry. apply Nat.eqb_neq. lia.
Qed.

Lemma assign_dims_spec f prev : forall gis u ds u' same, assign_dims f gis prev u = (ds, u', same) ->
  map d_group ds = map fst gis /\ (u <= u')%nat /\
  (forall t, In t ds -> d_dim t = f (hd 0%nat (d_group t)) /\
     exists id0, In (d_group t, id0) gis /\
       ((d_id t = id0 /\ forall d, In d prev -> d_id d = id0 -> d_dim d = d_dim t) \/
        ((u <= d_id t < u')%nat /\ exists d, In d prev /\ d_id d = id0 /\ d_dim d <> d_dim t))) /\
  (forall k, (u <= k < u')%nat -> exists t, In t ds /\ d_id t = k) /\
  (forall g id, In (g, id) gis -> (forall d, In d prev -> d_id d <> id) -> exists t, In t ds /\ d_id t = id) /\
  (NoDup (map snd gis) -> (forall k, In k (map snd gis) -> (k < u)%nat) -> NoDup (map d_id ds)) /\
  same = Nat.eqb u' u.
Proof.
  induction gis as [|[g id] t IH]; intros u ds u' same H; cbn [assign_dims] in H.
  - injection H as <- <- <-. split; [reflexivity|]. split; [lia|]. split; [intros t []|]. split; [intros k Hk; lia|].
    split; [intros g id []|]. split; [constructor|]. now rewrite Nat.eqb_refl.
  - destruct (existsb _ prev) eqn:X.
    + apply existsb_exists in X as (d & Hd & HX). apply andb_prop in HX as [X1 X2]. apply Nat.eqb_eq in X1.
      apply negb_true_iff, Z.eqb_neq in X2.
      destruct (assign_dims f t prev (S u)) as [[ds0 u0] same0] eqn:E0. injection H as <- <- <-.
      destruct (IH _ _ _ _ E0) as (M & U & SP & FR & KEEP & ND & SM).
      split; [cbn [map fst]; f_equal; exact M|]. split; [lia|]. split; [|split; [|split; [|split]]].
      * intros r [<-|Hr].
        -- cbn. split; [reflexivity|]. exists id. split; [now left|]. right. unfold d_id, d_dim; cbn. split; [lia|]. exists d. auto.
        -- destruct (SP r Hr) as (D & id0 & I0 & C). split; [exact D|]. exists id0. split; [now right|].
           destruct C as [C|[C1 C2]]; [now left|]. right. split; [lia|exact C2].
      * intros k Hk. destruct (Nat.eq_dec k u) as [->|N]; [eexists; split; [now left|reflexivity]|].
        destruct (FR k ltac:(lia)) as (r & Hr & Er). exists r. split; [now right|exact Er].
      * intros g' id' [[= <- <-]|HI] NP; [exfalso; now apply (NP d)|].
        destruct (KEEP g' id' HI NP) as (r & Hr & Er). exists r. split; [now right|exact Er].
      * cbn [map snd]. intros NG LT. inversion NG as [|? ? NI NG']; subst. constructor.
        2:{ apply ND; [exact NG'|]. intros k Hk. specialize (LT k (or_intror Hk)). lia. }
        unfold d_id at 1; cbn. intros HI. apply in_map_iff in HI as (r & Er & Hr). destruct (SP r Hr) as (_ & id0 & I0 & C).
        assert (id0 < u)%nat by (apply LT; right; apply in_map_iff; exists (d_group r, id0); auto).
        destruct C as [[C _]|[C _]]; lia.
      * symmetry. apply Nat.eqb_neq. lia.
    + destruct (assign_dims f t prev u) as [[ds0 u0] same0] eqn:E0. injection H as <- <- <-.
      destruct (IH _ _ _ _ E0) as (M & U & SP & FR & KEEP & ND & SM).
      assert (NX : forall d, In d prev -> d_id d = id -> d_dim d = f (hd 0%nat g)).
      { intros d Hd Ed. destruct (Z.eq_dec (d_dim d) (f (hd 0%nat g))) as [Y|Y]; [exact Y|]. exfalso.
        assert (existsb (fun d => Nat.eqb (d_id d) id && negb (d_dim d =? f (hd 0%nat g)))%bool prev = true); [|congruence].
        apply existsb_exists. exists d. split; [exact Hd|]. rewrite Ed, Nat.eqb_refl. cbn. now apply negb_true_iff, Z.eqb_neq. }
      split; [cbn [map fst]; f_equal; exact M|]. split; [lia|]. split; [|split; [|split; [|split]]].
      * intros r [<-|Hr].
        -- unfold d_group, d_id, d_dim; cbn. split; [reflexivity|]. exists id. split; [now left|]. left. split; [reflexivity|exact NX].
        -- destruct (SP r Hr) as (D & id0 & I0 & C). split; [exact D|]. exists id0. split; [now right|]. exact C.
      * intros k Hk. destruct (FR k Hk) as (r & Hr & Er). exists r. split; [now right|exact Er].
      * intros g' id' [[= <- <-]|HI] NP; [eexists; split; [now left|reflexivity]|].
        destruct (KEEP g' id' HI NP) as (r & Hr & Er). exists r. split; [now right|exact Er].
      * cbn [map snd]. intros NG LT. inversion NG as [|? ? NI NG']; subst. constructor.
        2:{ apply ND; [exact NG'|]. intros k Hk. exact (LT k (or_intror Hk)). }
        unfold d_id at 1; cbn. intros HI. apply in_map_iff in HI as (r & Er & Hr). destruct (SP r Hr) as (_ & id0 & I0 & C).
        assert (id < u)%nat by (apply LT; now left).
        destruct C as [[C _]|[C _]]; [|lia]. apply NI. apply in_map_iff. exists (d_group r, id0). cbn. split; [congruence|exact I0].
      * exact SM.
Qed.

(** Relation between the domains of one level and those of the next lower one. *)
Definition step_ids (prev : list dom) (u : nat) (ds : list dom) (u' : nat) : Prop :=
  (u <= u')%nat /\ NoDup (map d_id ds) /\ (forall t, In t ds -> (d_id t < u')%nat) /\
  (forall t, In t ds -> In t prev \/
     ((u <= d_id t)%nat /\ forall d, In d prev -> d_group d = d_group t -> d_dim d <> d_dim t)) /\
  (forall k, (u <= k < u')%nat -> exists t, In t ds /\ d_id t = k).

Definition doms_wf (ds : list dom) (u : nat) : Prop :=
  (forall d, In d ds -> (d_id d < u)%nat) /\
  (forall d d', In d ds -> In d' ds -> d_id d = d_id d' -> d = d') /\
  (forall d d', In d ds -> In d' ds -> d_group d = d_group d' -> d = d').

Lemma map_nodup_inj {A B} (f : A -> B) l : NoDup (map f l) ->
  forall x y, In x l -> In y l -> f x = f y -> x = y.
Proof.
  induction l as [|a l IH]; intros H x y Hx Hy E; [destruct Hx|]. cbn in H. inversion H as [|? ? N ND]; subst.
  destruct Hx as [<-|Hx], Hy as [<-|Hy]; auto.
  - exfalso. apply N. rewrite E. now apply in_map.
  - exfalso. apply N. rewrite <- E. now apply in_map.
Qed.

Lemma map_fst_combine {A B} (l : list A) (m : list B) : length m = length l -> map fst (combine l m) = l.
Proof. revert m. induction l as [|a l IH]; intros [|b m] H; try discriminate; [reflexivity|]. cbn in *. rewrite IH; auto. Qed.
Lemma map_snd_combine {A B} (l : list A) (m : list B) : length m = length l -> map snd (combine l m) = m.
Proof. revert m. induction l as [|a l IH]; intros [|b m] H; try discriminate; [reflexivity|]. cbn in *. rewrite IH; auto. Qed.

Lemma level_ids f groups prev u ids u1 s1 ds u2 s2 :
  assign_ids groups prev u = (ids, u1, s1) -> assign_dims f (combine groups ids) prev u1 = (ds, u2, s2) ->
  NoDup groups -> doms_wf prev u ->
  map d_group ds = groups /\ (forall t, In t ds -> d_dim t = f (hd 0%nat (d_group t))) /\
  step_ids prev u ds u2 /\ doms_wf ds u2 /\ (s1 && s2)%bool = Nat.eqb u2 u.
Proof.
  intros H1 H2 NG (W1 & W2 & W3).
  destruct (assign_ids_spec prev _ _ _ _ _ H1) as (L & U1 & S1 & FR1 & ND1 & E1).
  destruct (assign_dims_spec f prev _ _ _ _ _ H2) as (M & U2 & S2 & FR2 & KEEP & ND2 & E2).
  rewrite (map_fst_combine groups ids L) in M. rewrite (map_snd_combine groups ids L) in ND2.
  assert (IDS : forall k, In k ids -> exists g, In (g, k) (combine groups ids)).
  { intros k Hk. apply In_nth_error in Hk as (m & Hm). assert (m < length ids)%nat by (apply nth_error_Some; congruence).
    exists (nth m groups []). apply nth_error_nth with (d := 0%nat) in Hm.
    rewrite <- Hm, <- combine_nth by lia. apply nth_In. rewrite combine_length. lia. }
  assert (LT1 : forall k, In k ids -> (k < u1)%nat).
  { intros k Hk. destruct (IDS k Hk) as (g & Hg). destruct (S1 _ _ Hg) as [(d & Hd & _ & <-)|[_ R]]; [|lia].
    pose proof (W1 d Hd). lia. }
  assert (ND : NoDup (map d_id ds)) by (apply ND2; [now apply ND1|exact LT1]).
  split; [exact M|]. split; [intros t Ht; now apply S2|].
  assert (LT2 : forall t, In t ds -> (d_id t < u2)%nat).
  { intros t Ht. destruct (S2 t Ht) as (_ & id0 & I0 & [[C _]|[C _]]); [|lia].
    assert (id0 < u1)%nat; [|lia]. apply LT1. eapply in_combine_r; eauto. }
  split; [|split].
  - split; [lia|]. split; [exact ND|]. split; [exact LT2|]. split.
    + intros t Ht. destruct (S2 t Ht) as (D & id0 & I0 & C).
      destruct (S1 _ _ I0) as [(d & Hd & G & I)|[NP R]].
      * destruct C as [[C1 C2]|[C1 (d' & Hd' & I' & N')]].
        -- left. specialize (C2 d Hd I). destruct t as [[tg ti] td], d as [[dg di] dd]. unfold d_group, d_id, d_dim in *; cbn in *.
           subst. exact Hd.
        -- right. split; [lia|]. intros d0 Hd0 G0. assert (d0 = d) by (apply W3; auto; congruence).
           assert (d' = d) by (apply W2; auto; congruence). subst. exact N'.
      * right. split; [destruct C as [[C _]|[C _]]; lia|]. intros d Hd G. exfalso. now apply (NP d Hd).
    + intros k Hk. destruct (Nat.lt_ge_cases k u1) as [HL|HL]; [|apply FR2; lia].
      assert (Hi : In k ids) by (apply FR1; lia). destruct (IDS k Hi) as (g & Hg).
      apply (KEEP g k Hg). intros d Hd. pose proof (W1 d Hd). lia.
  - split; [exact LT2|]. split; [now apply map_nodup_inj|]. apply map_nodup_inj. now rewrite M.
  - rewrite E1, E2. destruct (Nat.eqb_spec u1 u), (Nat.eqb_spec u2 u1), (Nat.eqb_spec u2 u); try reflexivity; lia.
Qed.

(** ** Components at different values *)
Lemma joins_spec cs v i j : In (i, j) (joins cs v) <-> exists w, In (i, j, w) cs /\ (v <= w)%Q.
Proof.
  unfold joins. rewrite in_map_iff. split.
  - intros ([[a b] w] & [= -> ->] & H). apply filter_In in H as [H1 H2]. apply Qle_bool_iff in H2. exists w. auto.
  - intros (w & H1 & H2). exists (i, j, w). split; [reflexivity|]. apply filter_In. split; [exact H1|]. now apply Qle_bool_iff.
Qed.

Lemma joins_mono cs v w : (w <= v)%Q -> incl (joins cs v) (joins cs w).
Proof. intros H [i j] Hij. apply joins_spec in Hij as (x & H1 & H2). apply joins_spec. exists x. split; [exact H1|lra]. Qed.

Lemma comp_nest E F g h : incl E F -> component E g -> component F h -> forall x, In x g -> In x h -> incl g h.
Proof.
  intros I (_ & _ & G) (_ & _ & H) x Hg Hh y Hy. destruct (H x Hh) as [_ Hx]. apply Hx.
  destruct (G x Hg) as [_ Gx]. apply Gx in Hy as [M C]. split; [eapply mentioned_incl; eauto|]. eapply connected_mono; eauto.
Qed.

Lemma comp_refine E F gs hs : incl E F -> components E gs -> components F hs ->
  forall g, In g gs -> exists h, In h hs /\ incl g h.
Proof.
  intros I (G1 & G2 & _) (H1 & H2 & _) g Hg. pose proof (G1 g Hg) as C. destruct C as (NE & SS & C0).
  destruct g as [|x g']; [congruence|]. destruct (C0 x (or_introl eq_refl)) as [Mx _].
  destruct (H2 x) as (h & Hh & Xh); [eapply mentioned_incl; eauto|].
  exists h. split; [exact Hh|]. eapply comp_nest; eauto. now left.
Qed.

Lemma sorted_ext (l m : list nat) : StronglySorted lt l -> StronglySorted lt m -> (forall x, In x l <-> In x m) -> l = m.
Proof.
  intros H. revert m. induction H as [|a l S IH F]; intros m Hm E.
  - destruct m as [|b m]; [reflexivity|]. exfalso. apply (E b). now left.
  - destruct Hm as [|b m Sm Fm].
    + exfalso. apply (E a). now left.
    + rewrite Forall_forall in F, Fm. assert (a = b) as ->.
      { destruct (proj1 (E a) (or_introl eq_refl)) as [X|X]; [congruence|].
        destruct (proj2 (E b) (or_introl eq_refl)) as [Y|Y]; [congruence|].
        specialize (F b Y). specialize (Fm a X). lia. }
      f_equal. apply IH; [exact Sm|]. intros x. split; intros Hx.
      * destruct (proj1 (E x) (or_intror Hx)) as [<-|X]; [|exact X]. specialize (F _ Hx). lia.
      * destruct (proj2 (E x) (or_intror Hx)) as [<-|X]; [|exact X]. specialize (Fm _ Hx). lia.
Qed.

Lemma comp_overlap E g h x : component E g -> component E h -> In x g -> In x h -> g = h.
Proof.
  intros G H Hg Hh. apply sorted_ext; [apply G|apply H|]. intros y.
  split; [apply (comp_nest E E g h (incl_refl E) G H x Hg Hh)|apply (comp_nest E E h g (incl_refl E) H G x Hh Hg)].
Qed.

(** If no group is new, no group has disappeared. *)
Lemma comp_same E F gs hs : incl E F -> components E gs -> components F hs -> incl hs gs -> incl gs hs.
Proof.
  intros I G H S g Hg. destruct (comp_refine E F gs hs I G H g Hg) as (h & Hh & GH).
  assert (g = h) as ->; [|exact Hh]. destruct G as (G1 & _ & _). pose proof (G1 g Hg) as CG.
  destruct g as [|x g']; [destruct CG; congruence|]. apply (comp_overlap E _ h x CG (G1 h (S h Hh))); [now left|].
  apply GH. now left.
Qed.

Lemma comp_full E F n g : components E [g] -> length g = n -> incl E F -> (forall b, mentioned F b -> (b < n)%nat) ->
  components F [g].
Proof.
  intros (G1 & G2 & G3) L I BF. pose proof (G1 g (or_introl eq_refl)) as (NE & SS & C).
  assert (ND : NoDup g).
  { clear -SS. induction SS as [|a l S IH F]; constructor; [|exact IH]. intros X. rewrite Forall_forall in F. specialize (F a X). lia. }
  assert (ALL : forall b, In b g <-> (b < n)%nat).
  { intros b. split.
    - intros Hb. apply BF. eapply mentioned_incl; [exact I|]. now apply C.
    - intros Hb. assert (HI : incl (seq 0 n) g).
      { apply NoDup_length_incl; [exact ND|rewrite seq_length; lia|]. intros x Hx. apply in_seq.
        assert (x < n)%nat; [|lia]. apply BF. eapply mentioned_incl; [exact I|]. now apply C. }
      apply HI. apply in_seq. lia. }
  split; [|split; [|exact G3]].
  - intros g' [<-|[]]. split; [exact NE|]. split; [exact SS|]. intros i Hi. destruct (C i Hi) as [Mi Ci].
    split; [eapply mentioned_incl; eauto|]. intros j. split.
    + intros Hj. apply Ci in Hj as [Mj Cj]. split; [eapply mentioned_incl; eauto|eapply connected_mono; eauto].
    + intros [Mj _]. apply ALL. now apply BF.
  - intros b Hb. exists g. split; [now left|]. apply ALL. now apply BF.
Qed.

(** ** The levels *)
Inductive chain : list dom -> nat -> list level -> nat -> Prop :=
| chain_nil prev u : chain prev u [] u
| chain_cons prev u l ls u' u'' : step_ids prev u (lv_doms l) u' -> chain (lv_doms l) u' ls u'' ->
    chain prev u (l :: ls) u''.

Lemma chain_ext prev prev' u ls u' : (forall t, In t prev <-> In t prev') -> chain prev u ls u' -> chain prev' u ls u'.
Proof.
  intros H C. destruct C as [|prev u l ls u1 u2 (S1 & S2 & S3 & S4 & S5) C]; [constructor|].
  econstructor; [|exact C]. split; [exact S1|]. split; [exact S2|]. split; [exact S3|]. split; [|exact S5].
  intros t Ht. destruct (S4 t Ht) as [X|[X Y]]; [left; now apply H|]. right. split; [exact X|].
  intros d Hd. apply Y. now apply H.
Qed.

Lemma single_list {A} (d : A) l : NoDup l -> (forall x, In x l -> x = d) -> forall t, In t l -> l = [d].
Proof.
  intros ND H t Ht. destruct l as [|a [|b l]]; [destruct Ht| |].
  - rewrite (H a); [reflexivity|now left].
  - exfalso. inversion ND as [|? ? N _]; subst. apply N. left. rewrite (H a), (H b); [reflexivity|right; now left|now left].
Qed.

Definition pair_dec (x y : nat * nat) : {x = y} + {x <> y}.
Proof. decide equality; apply Nat.eq_dec. Defined.

Section RUN.
  Variable fuel : nat.
  Variable order : list nat.
  Variable dimf : Q -> nat -> Z.
  Variable cs : list conn.
  Variable n : nat.
  Hypothesis HC : forall i j v, In (i, j, v) cs -> (i < n)%nat /\ (j < n)%nat.
  Hypothesis HF : (n <= fuel)%nat.
  Hypothesis HO : forall i, In i order <-> (i < n)%nat.

  Definition state_ok (E : list (nat * nat)) (st : lstate) : Prop :=
    length (ls_p st) = n /\ part_inv E (ls_p st) /\ components E (map d_group (ls_doms st)) /\
    doms_wf (ls_doms st) (ls_unique st).

  Lemma level_step_correct E v prev st : state_ok E st ->
    incl E (joins cs v) -> incl (joins cs v) (E ++ map fst (new_conns cs v prev)) ->
    exists st' ch, level_step fuel order dimf cs v prev st = Done (st', ch) /\ state_ok (joins cs v) st' /\
      (forall t, In t (ls_doms st') -> d_dim t = dimf v (hd 0%nat (d_group t))) /\
      step_ids (ls_doms st) (ls_unique st) (ls_doms st') (ls_unique st') /\
      ch = negb (Nat.eqb (ls_unique st') (ls_unique st)).
  Proof.
    intros (L & PI & CP & WF) I1 I2. unfold level_step.
    destruct (connect_correct fuel (new_conns cs v prev) E (ls_p st) PI) as (p1 & E1 & L1 & PI1).
    { intros i j w H. apply filter_In in H as [H _]. rewrite L. now apply (HC i j w). }
    { lia. }
    rewrite E1. cbn [obind].
    assert (PI1' : part_inv (joins cs v) p1).
    { eapply part_inv_equiv; [|exact I2|exact PI1]. intros [i j] H. apply in_app_or in H as [H|H]; [now apply I1|].
      apply in_map_iff in H as ([[a b] w] & [= -> ->] & H). apply filter_In in H as [H X]. apply andb_prop in X as [X _].
      apply Qle_bool_iff in X. apply joins_spec. exists w. auto. }
    destruct (compress_inv fuel order _ p1 PI1') as (p2 & E2 & L2 & PI2 & PT2).
    { lia. } { intros i. rewrite HO. lia. }
    rewrite E2. cbn [obind].
    pose proof (find_groups_correct _ p2 PI2 PT2) as CG.
    destruct (assign_ids (find_groups p2) (ls_doms st) (ls_unique st)) as [[ids u1] s1] eqn:A1.
    destruct (assign_dims (dimf v) (combine (find_groups p2) ids) (ls_doms st) u1) as [[ds u2] s2] eqn:A2.
    destruct (level_ids _ _ _ _ _ _ _ _ _ _ A1 A2 (proj2 (proj2 CG)) WF) as (M & D & ST & WF2 & SM).
    do 2 eexists. split; [reflexivity|]. cbn [ls_p ls_doms ls_unique].
    split; [|split; [exact D|split; [exact ST|now rewrite SM]]].
    split; [cbn; lia|]. split; [exact PI2|]. split; [|exact WF2]. cbn. now rewrite M.
  Qed.

  (** What a list of recorded levels says about value [w]. *)
  Definition covers (ls : list level) (w : Q) : Prop :=
    exists l, In l ls /\ (w <= lv_value l)%Q /\
      (forall l', In l' ls -> (w <= lv_value l')%Q -> (lv_value l <= lv_value l')%Q) /\
      components (joins cs w) (map d_group (lv_doms l)) /\
      ((forall t, In t (lv_doms l) -> d_dim t = dimf w (hd 0%nat (d_group t))) \/ complete n (lv_doms l) = true).

  Definition level_ok (l : level) : Prop :=
    components (joins cs (lv_value l)) (map d_group (lv_doms l)) /\
    (forall t, In t (lv_doms l) -> d_dim t = dimf (lv_value l) (hd 0%nat (d_group t))) /\
    exists i j, In (i, j, lv_value l) cs.

  Lemma below_n v b : mentioned (joins cs v) b -> (b < n)%nat.
  Proof. intros (c & [H|H]); apply joins_spec in H as (w & H & _); apply HC in H; clear -H; lia. Qed.

  Lemma run_levels_correct values : forall E prev st, state_ok E st ->
    StronglySorted (fun a b => (b < a)%Q) values ->
    (forall v, In v values -> exists i j, In (i, j, v) cs) ->
    (forall v, In v values -> incl E (joins cs v)) ->
    (forall i j w, In (i, j, w) cs -> ~ In (i, j) E -> (w < prev)%Q) ->
    (forall i j w, In (i, j, w) cs -> (w < prev)%Q -> exists v, In v values /\ (w == v)%Q) ->
    (forall v, In v values -> (v < prev)%Q) ->
    exists ls u, run_levels fuel order dimf cs n values prev st = Done (ls, u) /\
      chain (ls_doms st) (ls_unique st) ls u /\
      StronglySorted (fun a b => (lv_value b < lv_value a)%Q) ls /\
      (forall l, In l ls -> level_ok l /\ In (lv_value l) values) /\
      (forall w, In w values -> covers ls w \/
         ((forall l, In l ls -> ~ (w <= lv_value l)%Q) /\ components (joins cs w) (map d_group (ls_doms st)) /\
          ((forall t, In t (ls_doms st) -> d_dim t = dimf w (hd 0%nat (d_group t))) \/
           exists ds, complete n ds = true /\ forall t, In t ds <-> In t (ls_doms st)))).
  Proof.
    induction values as [|v vs IH]; intros E prev st OK SS MEM INC OLD ALL LT; cbn [run_levels].
    - exists [], (ls_unique st). split; [reflexivity|]. split; [constructor|]. split; [constructor|].
      split; [intros l []|]. intros w [].
    - inversion SS as [|? ? SS' FA]; subst. rewrite Forall_forall in FA.
      assert (I2 : incl (joins cs v) (E ++ map fst (new_conns cs v prev))).
      { intros [i j] H. apply joins_spec in H as (w & Hw & Vw). apply in_or_app.
        destruct (in_dec pair_dec (i, j) E) as [X|X]; [now left|]. right.
        apply in_map_iff. exists (i, j, w). split; [reflexivity|]. apply filter_In. split; [exact Hw|].
        apply andb_true_intro. split; [now apply Qle_bool_iff|]. apply Qltb_lt. cbn [snd]. now apply (OLD i j). }
      destruct (level_step_correct E v prev st OK (INC v (or_introl eq_refl)) I2) as (st' & ch & E1 & OK' & DM & ST & CH).
      rewrite E1. cbn [obind].
      pose proof OK as (_ & _ & CP & WF). pose proof OK' as (_ & _ & CP' & WF').
      pose proof (MEM v (or_introl eq_refl)) as (iv & jv & Mv).
      assert (SAME : ch = false -> ls_unique st' = ls_unique st /\ forall t, In t (ls_doms st') <-> In t (ls_doms st)).
      { intros ->. symmetry in CH. apply negb_false_iff, Nat.eqb_eq in CH. split; [exact CH|].
        destruct ST as (_ & _ & S3 & S4 & _).
        assert (SUB : incl (ls_doms st') (ls_doms st)).
        { intros t Ht. destruct (S4 t Ht) as [X|[X _]]; [exact X|]. pose proof (S3 t Ht). lia. }
        intros t. split; [apply SUB|]. intros Ht.
        assert (HG : In (d_group t) (map d_group (ls_doms st'))).
        { apply (comp_same E (joins cs v) (map d_group (ls_doms st))); auto.
          - apply INC. now left.
          - intros g Hg. apply in_map_iff in Hg as (d & <- & Hd). apply in_map. now apply SUB.
          - now apply in_map. }
        apply in_map_iff in HG as (d & Ed & Hd). assert (d = t) as <-; [|exact Hd].
        destruct WF as (_ & _ & W3). apply W3; auto. }
      set (here := if ch then [Lv v (ls_doms st')] else []).
      assert (HV : forall l, In l here -> l = Lv v (ls_doms st')).
      { intros l. unfold here. destruct ch; [intros [<-|[]]; reflexivity|intros []]. }
      assert (LOK : forall l, In l here -> level_ok l).
      { intros l Hl. rewrite (HV l Hl). split; [exact CP'|]. split; [exact DM|]. cbn. eauto. }
      destruct (complete n (ls_doms st')) eqn:CM.
      + exists here, (ls_unique st'). split; [reflexivity|].
        assert (CC : forall w, In w (v :: vs) -> components (joins cs w) (map d_group (ls_doms st'))).
        { intros w Hw. unfold complete in CM. destruct (ls_doms st') as [|d [|? ?]] eqn:DD; try discriminate.
          apply andb_prop in CM as [CM _]. apply Nat.eqb_eq in CM. cbn [map] in CP' |- *.
          apply (comp_full (joins cs v) _ n); auto.
          - apply joins_mono. destruct Hw as [<-|Hw]; [lra|]. specialize (FA w Hw). lra.
          - apply below_n. }
        split; [|split; [|split]].
        * unfold here. destruct ch.
          -- econstructor; [exact ST|constructor].
          -- destruct (SAME eq_refl) as [-> _]. constructor.
        * unfold here. destruct ch; repeat constructor.
        * intros l Hl. split; [now apply LOK|]. rewrite (HV l Hl). now left.
        * intros w Hw. assert (w <= v)%Q by (destruct Hw as [<-|Hw]; [lra|]; specialize (FA w Hw); lra).
          unfold here in *. destruct ch.
          -- left. exists (Lv v (ls_doms st')). split; [now left|]. split; [exact H|].
             split; [intros l' Hl' _; rewrite (HV l' Hl'); cbn; lra|]. split; [now apply CC|]. now right.
          -- right. split; [intros l []|]. destruct (SAME eq_refl) as [_ SM]. split.
             ++ pose proof (CC w Hw) as (K1 & K2 & K3). destruct CP as (P1 & P2 & P3). split; [|split; [|exact P3]].
                ** intros g Hg. apply K1. apply in_map_iff in Hg as (t & <- & Ht). apply in_map. now apply SM.
                ** intros b Hb. destruct (K2 b Hb) as (g & Hg & Bg). exists g. split; [|exact Bg].
                   apply in_map_iff in Hg as (t & <- & Ht). apply in_map. now apply SM.
             ++ right. exists (ls_doms st'). split; [exact CM|exact SM].
      + destruct (IH (joins cs v) v st' OK' SS') as (ls & u & E2 & CN & SO & LV & CV).
        { intros w Hw. apply MEM. now right. }
        { intros w Hw. apply joins_mono. specialize (FA w Hw). lra. }
        { intros i j w Hw NJ. destruct (Qlt_le_dec w v) as [X|X]; [exact X|]. exfalso. apply NJ. apply joins_spec. exists w. auto. }
        { intros i j w Hw X. destruct (ALL i j w Hw) as (y & Hy & Ey).
          - specialize (LT v (or_introl eq_refl)). lra.
          - destruct Hy as [<-|Hy]; [lra|]. exists y. auto. }
        { intros w Hw. apply (FA w Hw). }
        rewrite E2. cbn [obind]. exists (here ++ ls), u. split; [reflexivity|].
        assert (BELOW : forall l, In l ls -> (lv_value l < v)%Q) by (intros l Hl; apply (FA _ (proj2 (LV l Hl)))).
        split; [|split; [|split]].
        * unfold here. destruct ch; cbn [app].
          -- econstructor; [exact ST|exact CN].
          -- destruct (SAME eq_refl) as [<- SM]. eapply chain_ext; [exact SM|exact CN].
        * unfold here. destruct ch; cbn [app]; [|exact SO]. constructor; [exact SO|]. apply Forall_forall. intros l Hl. now apply BELOW.
        * intros l Hl. apply in_app_or in Hl as [Hl|Hl]; [split; [now apply LOK|rewrite (HV l Hl); now left]|].
          destruct (LV l Hl) as [A B]. split; [exact A|now right].
        * assert (LIFT : forall w, covers ls w -> (w <= v)%Q -> covers (here ++ ls) w).
          { intros w (l & Hl & V1 & V2 & V3 & V4) Wv. exists l. split; [apply in_or_app; now right|]. split; [exact V1|].
            split; [|split; [exact V3|exact V4]]. intros l' Hl' W'. apply in_app_or in Hl' as [Hl'|Hl']; [|now apply V2].
            rewrite (HV l' Hl'). cbn. specialize (BELOW l Hl). lra. }
          intros w Hw. destruct Hw as [<-|Hw].
          -- unfold here in *. destruct ch; cbn [app] in *.
             ++ left. exists (Lv v (ls_doms st')). split; [now left|]. cbn [lv_value lv_doms]. split; [lra|]. split.
                ** intros l' [<-|Hl'] W'; [cbn; lra|]. specialize (BELOW l' Hl'). lra.
                ** split; [exact CP'|now left].
             ++ right. destruct (SAME eq_refl) as [_ SM]. split; [intros l Hl X; specialize (BELOW l Hl); lra|]. split.
                ** destruct CP' as (K1 & K2 & K3). destruct CP as (P1 & P2 & P3). split; [|split; [|exact P3]].
                   --- intros g Hg. apply K1. apply in_map_iff in Hg as (t & <- & Ht). apply in_map. now apply SM.
                   --- intros b Hb. destruct (K2 b Hb) as (g & Hg & Bg). exists g. split; [|exact Bg].
                       apply in_map_iff in Hg as (t & <- & Ht). apply in_map. now apply SM.
                ** left. intros t Ht. apply DM. now apply SM.
          -- pose proof (FA w Hw) as Wv. destruct (CV w Hw) as [CO|(N1 & N2 & N3)]; [left; apply LIFT; [exact CO|lra]|].
             assert (D3 : (forall t, In t (ls_doms st') -> d_dim t = dimf w (hd 0%nat (d_group t))) \/ complete n (ls_doms st') = true).
             { destruct N3 as [N3|(ds & CD & SD)]; [now left|]. left. intros t Ht. exfalso.
               unfold complete in CD. destruct ds as [|d [|? ?]]; try discriminate.
               assert (D1 : forall x, In x (ls_doms st') -> x = d) by (intros x Hx; apply SD in Hx; destruct Hx as [<-|[]]; reflexivity).
               assert (ls_doms st' = [d]) as DE.
               { apply (single_list d _ (NoDup_map_inv _ _ (proj1 (proj2 ST))) D1 t Ht). }
               rewrite DE in CM. cbn in CM. congruence. }
             unfold here in *. destruct ch; cbn [app] in *.
             ++ left. exists (Lv v (ls_doms st')). split; [now left|]. cbn [lv_value lv_doms]. split; [lra|]. split.
                ** intros l' [<-|Hl'] W'; [cbn; lra|]. exfalso. now apply (N1 l' Hl').
                ** split; [exact N2|exact D3].
             ++ right. destruct (SAME eq_refl) as [_ SM]. split; [exact N1|]. split.
                ** destruct N2 as (K1 & K2 & K3). destruct CP as (P1 & P2 & P3). split; [|split; [|exact P3]].
                   --- intros g Hg. apply K1. apply in_map_iff in Hg as (t & <- & Ht). apply in_map. now apply SM.
                   --- intros b Hb. destruct (K2 b Hb) as (g & Hg & Bg). exists g. split; [|exact Bg].
                       apply in_map_iff in Hg as (t & <- & Ht). apply in_map. now apply SM.
                ** destruct D3 as [D3|D3]; [left; intros t Ht; apply D3; now apply SM|]. right. exists (ls_doms st'). auto.
  Qed.
End RUN.
