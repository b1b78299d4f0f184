(** Main results on [find_domain_bifurcations]. *)
From Coq Require Import QArith Sorting.Sorted Lqa.
From Verif Require Import Base GridModel NeighModel RootsModel RootsSpec RootsProofs UnionModel UnionSpec UnionProofs
  BifModel BifSpec BifProofs BifLevels BifTree.
Local Open Scope Z_scope.

(** ** The distinct values, largest first *)
Lemma ins_desc_in x l y : In y (ins_desc x l) -> y = x \/ In y l.
Proof.
  induction l as [|a l IH]; cbn [ins_desc]; [intros [<-|[]]; auto|].
  destruct (Qeq_bool x a); [auto|]. destruct (Qltb a x); [intros [<-|H]; auto|].
  intros [<-|H]; [right; now left|]. apply IH in H as [->|H]; auto. right. now right.
Qed.
Lemma ins_desc_has x l : exists y, In y (ins_desc x l) /\ (x == y)%Q.
Proof.
  induction l as [|a l IH]; cbn [ins_desc]; [exists x; split; [now left|reflexivity]|].
  destruct (Qeq_bool x a) eqn:E; [apply Qeq_bool_iff in E; exists a; split; [now left|exact E]|].
  destruct (Qltb a x); [exists x; split; [now left|reflexivity]|].
  destruct IH as (y & H & Ey). exists y. split; [now right|exact Ey].
Qed.
Lemma ins_desc_keeps x l y : In y l -> In y (ins_desc x l).
Proof.
  induction l as [|a l IH]; cbn [ins_desc]; [intros []|]. intros H.
  destruct (Qeq_bool x a); [exact H|]. destruct (Qltb a x); [now right|]. destruct H as [<-|H]; [now left|]. right. now apply IH.
Qed.
Lemma ins_desc_sorted x l : StronglySorted (fun a b => (b < a)%Q) l -> StronglySorted (fun a b => (b < a)%Q) (ins_desc x l).
Proof.
  induction 1 as [|a l S IH F]; cbn [ins_desc]; [repeat constructor|].
  destruct (Qeq_bool x a) eqn:E; [now constructor|].
  assert (NE : ~ (x == a)%Q) by (intros X; apply Qeq_bool_iff in X; congruence).
  rewrite Forall_forall in F. destruct (Qltb_spec a x) as [H|H].
  - constructor; [constructor; [exact S|apply Forall_forall; exact F]|]. apply Forall_forall. intros y [<-|Hy]; [exact H|].
    specialize (F y Hy). lra.
  - constructor; [exact IH|]. apply Forall_forall. intros y Hy. apply ins_desc_in in Hy as [->|Hy]; [|now apply F].
    apply Qle_lteq in H as [H|H]; [exact H|contradiction].
Qed.
Lemma values_desc_sorted vs : StronglySorted (fun a b => (b < a)%Q) (values_desc vs).
Proof. induction vs as [|v vs IH]; cbn; [constructor|]. now apply ins_desc_sorted. Qed.
Lemma values_desc_in vs y : In y (values_desc vs) -> In y vs.
Proof. induction vs as [|v vs IH]; cbn; [intros []|]. intros H. apply ins_desc_in in H as [->|H]; auto. Qed.
Lemma values_desc_has vs x : In x vs -> exists y, In y (values_desc vs) /\ (x == y)%Q.
Proof.
  induction vs as [|v vs IH]; cbn; [intros []|]. intros [<-|H]; [apply ins_desc_has|].
  destruct (IH H) as (y & Hy & E). exists y. split; [now apply ins_desc_keeps|exact E].
Qed.

Lemma min_above w vs : (exists v, In v vs /\ (w <= v)%Q) ->
  exists y, In y vs /\ (w <= y)%Q /\ forall v, In v vs -> (w <= v)%Q -> (y <= v)%Q.
Proof.
  induction vs as [|a vs IH]; intros (v & Hv & Wv); [destruct Hv|].
  destruct (Qlt_le_dec a w) as [La|La].
  - destruct IH as (y & Hy & Wy & My).
    + exists v. destruct Hv as [<-|Hv]; [lra|auto].
    + exists y. split; [now right|]. split; [exact Wy|]. intros x [<-|Hx] Wx; [lra|auto].
  - destruct (existsb (fun x => Qle_bool w x) vs) eqn:X.
    + apply existsb_exists in X as (x & Hx & Wx). apply Qle_bool_iff in Wx.
      destruct IH as (y & Hy & Wy & My); [eauto|]. destruct (Qlt_le_dec a y) as [L|L].
      * exists a. split; [now left|]. split; [exact La|]. intros z [<-|Hz] Wz; [lra|]. specialize (My z Hz Wz). lra.
      * exists y. split; [now right|]. split; [exact Wy|]. intros z [<-|Hz] Wz; [exact L|auto].
    + exists a. split; [now left|]. split; [exact La|]. intros z [<-|Hz] Wz; [lra|]. exfalso.
      assert (existsb (fun x => Qle_bool w x) vs = true); [|congruence]. apply existsb_exists. exists z. split; [exact Hz|].
      now apply Qle_bool_iff.
Qed.

(** [ls] shows, for value [w], the groups [joins cs w] has: they are those of the lowest
    recorded level at or above [w]. *)
Definition shows (cs : list conn) (ls : list level) (w : Q) : Prop :=
  exists l, In l ls /\ (w <= lv_value l)%Q /\
    (forall l', In l' ls -> (w <= lv_value l')%Q -> (lv_value l <= lv_value l')%Q) /\
    components (joins cs w) (map d_group (lv_doms l)).

Definition conns_ok (cs : list conn) (n : nat) : Prop :=
  forall i j v, In (i, j, v) cs -> (i < n)%nat /\ (j < n)%nat /\ (v < huge)%Q.

Theorem domain_levels_correct fuel order dimf cs n : conns_ok cs n -> (n <= fuel)%nat ->
  (forall i, In i order <-> (i < n)%nat) ->
  exists ls u, domain_levels fuel order dimf cs n = Done (ls, u) /\
    chain [] 0 ls u /\ StronglySorted (fun a b => (lv_value b < lv_value a)%Q) ls /\
    (forall l, In l ls -> level_ok dimf cs l) /\
    (forall w, In w (values_desc (map snd cs)) -> covers dimf cs n ls w) /\
    (forall w, (exists i j v, In (i, j, v) cs /\ (w <= v)%Q) -> shows cs ls w).
Proof.
  intros OK HF HO. unfold domain_levels.
  assert (NJ : forall i j, ~ mentioned (@nil (nat * nat)) i /\ ~ active (repeat (-1) n) i /\ ~ active (repeat (-1) n) j).
  { assert (A : forall i, ~ active (repeat (-1) n) i).
    { intros i (x & Hx & N). apply nth_error_In, repeat_spec in Hx. contradiction. }
    intros i j. split; [intros (c & [[]|[]])|]. auto. }
  destruct (run_levels_correct fuel order dimf cs n) with (values := values_desc (map snd cs)) (E := @nil (nat * nat))
    (prev := huge) (st := LS (repeat (-1) n) [] 0) as (ls & u & E1 & CH & SO & LV & CV).
  - intros i j v H. destruct (OK i j v H) as (A & B & _). auto.
  - exact HF.
  - exact HO.
  - split; [apply repeat_length|]. split; [|split].
    + split; [|split].
      * split; intros i x Hx N; exfalso; apply nth_error_In, repeat_spec in Hx; contradiction.
      * intros i. cbn. destruct (NJ i i) as (A & B & _). tauto.
      * intros i j Ai. exfalso. exact (proj1 (proj2 (NJ i i)) Ai).
    + split; [intros g []|]. split; [|constructor]. intros b Hb. exfalso. exact (proj1 (NJ b b) Hb).
    + split; [intros d []|]. split; intros d d' [].
  - apply values_desc_sorted.
  - intros v Hv. apply values_desc_in, in_map_iff in Hv as ([[i j] w] & <- & H). cbn. eauto.
  - intros v _ x [].
  - intros i j w H _. now apply (OK i j w).
  - intros i j w H _. apply values_desc_has. apply in_map_iff. exists (i, j, w). auto.
  - intros v Hv. apply values_desc_in, in_map_iff in Hv as ([[i j] w] & <- & H). now apply (OK i j w).
  - exists ls, u. split; [exact E1|]. split; [exact CH|]. split; [exact SO|]. split; [intros l Hl; now apply LV|].
    assert (COV : forall w, In w (values_desc (map snd cs)) -> covers dimf cs n ls w).
    { intros w Hw. destruct (CV w Hw) as [X|(_ & (X1 & X2 & X3) & _)]; [exact X|]. exfalso.
      apply values_desc_in, in_map_iff in Hw as ([[i j] w'] & <- & H). cbn in *.
      destruct (X2 i) as (g & [] & _). exists j. left. apply joins_spec. exists w'. split; [exact H|lra]. }
    split; [exact COV|].
    intros w (i & j & v & Hv & Wv).
    destruct (min_above w (values_desc (map snd cs))) as (y & Hy & Wy & My).
    { destruct (values_desc_has (map snd cs) v) as (v' & Hv' & Ev'); [apply in_map_iff; exists (i, j, v); auto|].
      exists v'. split; [exact Hv'|lra]. }
    destruct (COV y Hy) as (l & Hl & Yl & Ml & Cl & _). exists l. split; [exact Hl|]. split; [lra|].
    assert (JE : joins cs w = joins cs y).
    { unfold joins. f_equal. apply filter_ext_in. intros [[a b] c] Hc. cbn.
      destruct (Qle_bool w c) eqn:L1, (Qle_bool y c) eqn:L2; try reflexivity; exfalso.
      - apply Qle_bool_iff in L1. destruct (values_desc_has (map snd cs) c) as (c' & Hc' & Ec'); [apply in_map_iff; exists (a, b, c); auto|].
        pose proof (My c' Hc' ltac:(lra)). assert (Qle_bool y c = true) by (apply Qle_bool_iff; lra). congruence.
      - apply Qle_bool_iff in L2. assert (Qle_bool w c = true) by (apply Qle_bool_iff; lra). congruence. }
    split; [|now rewrite JE]. intros l' Hl' Wl'. apply Ml; [exact Hl'|]. apply My; [apply (LV l' Hl')|exact Wl'].
Qed.

Lemma level_inj dimf cs l : level_ok dimf cs l -> forall d d', In d (lv_doms l) -> In d' (lv_doms l) -> d_group d = d_group d' -> d = d'.
Proof. intros ((_ & _ & ND) & _) d d'. now apply map_nodup_inj. Qed.

Lemma nth_lv_in ls j t : In t (at_lv ls j) -> In (nth j ls lv0) ls /\ (j < length ls)%nat.
Proof.
  intros H. unfold at_lv in H. destruct (nth_in_or_default j ls lv0) as [X|X].
  - split; [exact X|]. destruct (Nat.lt_ge_cases j (length ls)) as [L|L]; [exact L|]. rewrite nth_overflow in H by lia. destruct H.
  - rewrite X in H. destruct H.
Qed.

Theorem identity_correct fuel order dimf cs n ls u : conns_ok cs n -> (n <= fuel)%nat ->
  (forall i, In i order <-> (i < n)%nat) -> domain_levels fuel order dimf cs n = Done (ls, u) ->
  (forall a b c t t', (a <= b <= c)%nat -> (c < length ls)%nat -> In t (at_lv ls c) -> In t' (at_lv ls a) ->
     d_id t = d_id t' -> t = t' /\ In t (at_lv ls b)) /\
  (forall j t t', In t (at_lv ls (S j)) -> In t' (at_lv ls j) -> d_group t = d_group t' -> d_dim t = d_dim t' ->
     d_id t = d_id t') /\
  (forall k, (k < u)%nat <-> exists j t, In t (at_lv ls j) /\ d_id t = k).
Proof.
  intros OK HF HO E. destruct (domain_levels_correct fuel order dimf cs n OK HF HO) as (ls' & u' & E' & CH & SO & LV & _).
  rewrite E in E'. injection E' as <- <-. split; [|split].
  - exact (chain_contig _ _ _ _ CH).
  - intros j t t' Ht Ht' G D. f_equal. apply (chain_keep _ _ _ _ CH j); auto; [now apply (nth_lv_in ls (S j) t)|].
    intros j' d d' Hd Hd'. apply (level_inj dimf cs (nth j' ls lv0)); auto. apply LV. now apply (nth_lv_in ls j' d).
  - intros k. split.
    + intros Hk. destruct (chain_all _ _ _ _ CH k ltac:(lia)) as (j & t & _ & Ht & Et). eauto.
    + intros (j & t & Ht & <-). eapply chain_lt; eauto.
Qed.

(** ** The forest *)
Record forest (cs : list conn) (maxref : nat -> Q) (min_data : Q) (recs : list bdom) : Prop := FO {
  fo_comp : forall d, In d recs -> exists i j v, In (i, j, v) cs /\ component (joins cs v) (b_basins d);
  fo_all : forall w g, component (joins cs w) g -> exists d, In d recs /\ b_basins d = g;
  fo_laminar : forall d d', In d recs -> In d' recs ->
    incl (b_basins d) (b_basins d') \/ incl (b_basins d') (b_basins d) \/
    (forall x, In x (b_basins d) -> ~ In x (b_basins d'));
  fo_root : forall i d, nth_error recs i = Some d -> b_parent d = -1 ->
    b_min d = min_data /\ forall d', In d' recs -> incl (b_basins d) (b_basins d') -> b_basins d' = b_basins d;
  fo_parent : forall i d, nth_error recs i = Some d -> b_parent d <> -1 ->
    exists p dp, b_parent d = Z.of_nat p /\ (p < i)%nat /\ nth_error recs p = Some dp /\
      incl (b_basins d) (b_basins dp) /\
      (forall q dq, nth_error recs q = Some dq -> (q < i)%nat -> incl (b_basins d) (b_basins dq) -> incl (b_basins dp) (b_basins dq)) /\
      (forall dq, In dq recs -> incl (b_basins d) (b_basins dq) -> b_basins dq = b_basins d \/ incl (b_basins dp) (b_basins dq)) /\
      b_max dp = Some (b_min d) /\ (b_min dp <= b_min d)%Q /\ (b_parent dp <> -1 -> (b_min dp < b_min d)%Q);
  fo_leaf : forall i d x, nth_error recs i = Some d -> b_parent d <> -1 -> b_basins d = [x] ->
    (forall d', In d' recs -> b_parent d' <> Z.of_nat i) -> b_max d = Some (maxref x);
  fo_apart : forall i d i' d' x, nth_error recs i = Some d -> nth_error recs i' = Some d' -> i <> i' -> b_parent d = b_parent d' ->
    In x (b_basins d) -> ~ In x (b_basins d');
  fo_value : forall d, In d recs -> b_parent d <> -1 -> exists i j, In (i, j, b_min d) cs }.

Lemma at_lv_rev ls j : (j < length ls)%nat -> nth j (rev ls) lv0 = nth (length ls - 1 - j) ls lv0.
Proof. intros H. rewrite rev_nth by exact H. f_equal. lia. Qed.

Theorem forest_correct fuel order dimf maxref min_data cs n : conns_ok cs n -> (n <= fuel)%nat ->
  (forall i, In i order <-> (i < n)%nat) -> cs <> [] -> (forall i j v, In (i, j, v) cs -> (min_data <= v)%Q) ->
  exists recs, find_domain_bifurcations fuel order dimf maxref min_data cs n = Done recs /\ forest cs maxref min_data recs.
Proof.
  intros OK HF HO NE MD. destruct (domain_levels_correct fuel order dimf cs n OK HF HO) as (ls & u & E & CH & SO & LV & _ & SH).
  unfold find_domain_bifurcations. rewrite E. cbn [obind].
  assert (NL : ls <> []).
  { destruct cs as [|[[i j] v] t]; [congruence|]. destruct (SH v) as (l & Hl & _).
    - exists i, j, v. split; [now left|lra].
    - intros ->. destruct Hl. }
  set (Ls := rev ls).
  assert (LL : length Ls = length ls) by apply rev_length.
  assert (AT : forall j, (j < length ls)%nat -> at_lv Ls j = at_lv ls (length ls - 1 - j)).
  { intros j Hj. unfold at_lv, Ls. now rewrite at_lv_rev. }
  assert (ATI : forall j t, In t (at_lv Ls j) -> (j < length ls)%nat /\ In (nth j Ls lv0) ls).
  { intros j t Ht. apply nth_lv_in in Ht as [A B]. rewrite LL in B. split; [exact B|]. unfold Ls in A. now apply in_rev in A. }
  assert (COMP : forall j t, In t (at_lv Ls j) -> component (joins cs (lv_value (nth j Ls lv0))) (d_group t)).
  { intros j t Ht. destruct (ATI j t Ht) as [_ A]. destruct (LV _ A) as ((C1 & _) & _). apply C1. now apply in_map. }
  assert (VAL : forall a b, (a < b < length ls)%nat -> (lv_value (nth a Ls lv0) < lv_value (nth b Ls lv0))%Q).
  { intros a b Hab. unfold Ls. rewrite !at_lv_rev by lia.
    assert (G : forall l : list level, StronglySorted (fun a b => (lv_value b < lv_value a)%Q) l -> forall x y, (x < y < length l)%nat ->
       (lv_value (nth y l lv0) < lv_value (nth x l lv0))%Q).
    { clear. induction 1 as [|a l S IH F]; intros x y Hxy; [cbn in Hxy; lia|]. rewrite Forall_forall in F.
      destruct y as [|y]; [lia|]. cbn in Hxy. destruct x as [|x]; cbn [nth].
      - apply F. apply nth_In. lia.
      - apply IH. lia. }
    apply (G ls SO). lia. }
  assert (VALE : forall a b, (a <= b < length ls)%nat -> (lv_value (nth a Ls lv0) <= lv_value (nth b Ls lv0))%Q).
  { intros a b Hab. destruct (Nat.eq_dec a b) as [->|N]; [lra|]. pose proof (VAL a b ltac:(lia)). lra. }
  assert (H1 : forall j t t' x, In t (at_lv Ls j) -> In t' (at_lv Ls j) -> In x (d_group t) -> In x (d_group t') -> t = t').
  { intros j t t' x Ht Ht' X X'. destruct (ATI j t Ht) as [_ A]. apply (level_inj dimf cs _ (LV _ A)); auto.
    eapply comp_overlap; eauto. }
  assert (HN : forall j t, In t (at_lv Ls j) -> exists x, In x (d_group t)).
  { intros j t Ht. destruct (COMP j t Ht) as (N & _). destruct (d_group t) as [|x g]; [congruence|]. exists x. now left. }
  assert (H2 : forall j t, (S j < length Ls)%nat -> In t (at_lv Ls (S j)) -> exists t', In t' (at_lv Ls j) /\ incl (d_group t) (d_group t')).
  { intros j t Hj Ht. destruct (ATI _ t Ht) as [_ A].
    assert (B : In (nth j Ls lv0) ls) by (apply in_rev; fold Ls; apply nth_In; lia).
    destruct (comp_refine (joins cs (lv_value (nth (S j) Ls lv0))) (joins cs (lv_value (nth j Ls lv0)))
       (map d_group (at_lv Ls (S j))) (map d_group (at_lv Ls j))) with (g := d_group t) as (h & Hh & I).
    - apply joins_mono. apply VALE. lia.
    - apply (LV _ A).
    - apply (LV _ B).
    - now apply in_map.
    - apply in_map_iff in Hh as (t' & <- & Ht'). eauto. }
  assert (H3 : forall a b c t t', (a <= b <= c)%nat -> (c < length Ls)%nat -> In t (at_lv Ls c) -> In t' (at_lv Ls a) ->
    d_id t = d_id t' -> t = t' /\ In t (at_lv Ls b)).
  { intros a b c t t' Habc Hc Ht Ht' EQ. rewrite AT in Ht, Ht' by lia. rewrite AT by lia.
    destruct (chain_contig _ _ _ _ CH (length ls - 1 - c) (length ls - 1 - b) (length ls - 1 - a) t' t) as [-> X]; auto; lia. }
  assert (H4 : forall j, NoDup (map d_id (at_lv Ls j))).
  { intros j. destruct (Nat.lt_ge_cases j (length ls)) as [L|L]; [rewrite AT by lia; eapply chain_nodup; eauto|].
    unfold at_lv. rewrite nth_overflow by lia. constructor. }
  assert (H5 : forall j t, In t (at_lv Ls j) -> (d_id t < u)%nat).
  { intros j t Ht. destruct (ATI j t Ht) as [L _]. rewrite AT in Ht by lia. eapply chain_lt; eauto. }
  assert (NLs : Ls <> []) by (intros X; apply NL; destruct ls; [reflexivity|]; apply (f_equal (@length _)) in X; rewrite LL in X; discriminate).
  destruct (tree_correct maxref min_data u Ls H1 HN H2 H3 H4 H5 NLs) as (recs & gh & EO & I & CV).
  unfold Ls in EO. rewrite rev_involutive in EO. fold Ls in EO. exists recs. split; [exact EO|].
  assert (GH : forall i d, nth_error recs i = Some d -> exists t b, nth_error gh i = Some (t, b) /\ d = rec_of recs i /\
     b_basins d = d_group t /\ In t (at_lv Ls b) /\ (b < length ls)%nat).
  { intros i d Hd. assert (i < length recs)%nat by (apply nth_error_Some; congruence).
    destruct (nth_error gh i) as [[t b]|] eqn:EG; [|apply nth_error_None in EG; rewrite (ti_len _ _ _ _ _ _ I) in EG; lia].
    assert (d = rec_of recs i) by (symmetry; apply nth_error_nth; exact Hd).
    exists t, b. split; [reflexivity|]. split; [exact H0|]. rewrite H0. split; [now apply (ti_rec _ _ _ _ _ _ I i t b)|].
    destruct (ti_birth _ _ _ _ _ _ I i t b EG) as [B D]. split; [exact D|]. apply (ATI b t D). }
  assert (NEST : forall a b t t' x, (a <= b)%nat -> In t (at_lv Ls a) -> In t' (at_lv Ls b) -> In x (d_group t) -> In x (d_group t') ->
     incl (d_group t') (d_group t)).
  { intros a b t t' x Hab Ht Ht' X X'. destruct (ATI b t' Ht') as [Lb _].
    eapply comp_nest; [|exact (COMP b t' Ht')|exact (COMP a t Ht)|exact X'|exact X].
    apply joins_mono, VALE. lia. }
  assert (SE : forall a b t t', In t (at_lv Ls a) -> In t' (at_lv Ls b) -> incl (d_group t) (d_group t') -> incl (d_group t') (d_group t) ->
     d_group t = d_group t').
  { intros a b t t' Ht Ht' A B. destruct (COMP a t Ht) as (_ & S1 & _), (COMP b t' Ht') as (_ & S2 & _).
    apply sorted_ext; auto. intros x. split; auto. }
  assert (UNIQ : forall i i' t b b', nth_error gh i = Some (t, b) -> nth_error gh i' = Some (t, b') -> i = i').
  { intros i i' t b b' A B. apply (proj1 (NoDup_nth_error _) (ti_nodup _ _ _ _ _ _ I)).
    - rewrite map_length. apply nth_error_Some. congruence.
    - rewrite !nth_error_map, A, B. reflexivity. }
  assert (SAME : forall c tc bc c' tc' bc', nth_error gh c = Some (tc, S bc) -> nth_error gh c' = Some (tc', S bc') ->
    b_parent (rec_of recs c) = b_parent (rec_of recs c') -> bc = bc').
  { assert (LE : forall c tc bc c' tc' bc', nth_error gh c = Some (tc, S bc) -> nth_error gh c' = Some (tc', S bc') ->
      b_parent (rec_of recs c) = b_parent (rec_of recs c') -> ~ (bc < bc')%nat).
    { intros c tc bc c' tc' bc' EC EC' PE LT. destruct (ti_parent _ _ _ _ _ _ I c tc bc EC) as (p & tp & bp & _ & C2 & C3 & _ & C5 & _).
      destruct (ti_parent _ _ _ _ _ _ I c' tc' bc' EC') as (p' & tp' & bp' & _ & D2 & D3 & _ & D5 & _).
      assert (p' = p) by lia. subst p'. rewrite C3 in D3. injection D3 as <- <-.
      destruct (ti_birth _ _ _ _ _ _ I c tc _ EC) as [_ DC]. destruct (HN _ _ DC) as (xc & XC). destruct (ATI _ _ D5) as [LC _].
      destruct (H3 bc (S bc) bc' tp tp ltac:(lia) ltac:(lia) D5 C5 eq_refl) as [_ T].
      destruct (ti_parent _ _ _ _ _ _ I c tc bc EC) as (p2 & tp2 & bp2 & _ & C2' & C3' & _ & _ & C6 & _).
      assert (p2 = p) by lia. subst p2. rewrite C3 in C3'. injection C3' as <- <-.
      assert (tc = tp) as -> by (apply (H1 (S bc) tc tp xc); auto). now apply (ti_new _ _ _ _ _ _ I c tp bc EC). }
    intros c tc bc c' tc' bc' EC EC' PE. pose proof (LE _ _ _ _ _ _ EC EC' PE). pose proof (LE _ _ _ _ _ _ EC' EC (eq_sym PE)). lia. }
  constructor.
  - intros d Hd. apply In_nth_error in Hd as (i & Hi). destruct (GH i d Hi) as (t & b & _ & _ & -> & D & L).
    destruct (ATI b t D) as [_ A]. destruct (LV _ A) as (_ & _ & x & y & Hxy). exists x, y, (lv_value (nth b Ls lv0)).
    split; [exact Hxy|]. now apply COMP.
  - intros w g CG. pose proof CG as (N & _ & C0). destruct g as [|x g]; [congruence|].
    destruct (C0 x (or_introl eq_refl)) as [(y & M) _].
    destruct (SH w) as (l & Hl & Wl & Ml & (C1 & C2 & C3)).
    { destruct M as [M|M]; apply joins_spec in M as (v & A & B); eauto. }
    destruct (C2 x) as (h & Hh & Xh); [exists y; exact M|].
    assert (x :: g = h) by (eapply comp_overlap; eauto; now left). subst h.
    apply in_map_iff in Hh as (t & Et & Ht).
    assert (exists j, (j < length ls)%nat /\ nth j Ls lv0 = l) as (j & Hj & Ej).
    { apply in_rev in Hl. fold Ls in Hl. apply (In_nth _ _ lv0) in Hl as (j & A & B). exists j. split; [lia|exact B]. }
    destruct (CV j ltac:(lia) t) as (i & b & Ei & _); [unfold at_lv; now rewrite Ej|].
    exists (rec_of recs i). split.
    + apply nth_In. rewrite <- (ti_len _ _ _ _ _ _ I). apply nth_error_Some. congruence.
    + rewrite <- Et. now apply (ti_rec _ _ _ _ _ _ I i t b).
  - intros d d' Hd Hd'. apply In_nth_error in Hd as (i & Hi), Hd' as (i' & Hi').
    destruct (GH i d Hi) as (t & b & _ & _ & -> & D & L), (GH i' d' Hi') as (t' & b' & _ & _ & -> & D' & L').
    destruct (existsb (fun x => existsb (Nat.eqb x) (d_group t')) (d_group t)) eqn:X.
    + apply existsb_exists in X as (x & X1 & X2). apply existsb_exists in X2 as (y & Y1 & Y2). apply Nat.eqb_eq in Y2. subst y.
      destruct (Nat.le_ge_cases b b') as [B|B].
      * right. left. now apply (NEST b b' t t' x).
      * left. now apply (NEST b' b t' t x).
    + right. right. intros x X1 X2. assert (existsb (fun x => existsb (Nat.eqb x) (d_group t')) (d_group t) = true); [|congruence].
      apply existsb_exists. exists x. split; [exact X1|]. apply existsb_exists. exists x. split; [exact X2|]. apply Nat.eqb_refl.
  - intros i d Hi P. destruct (GH i d Hi) as (t & b & EG & -> & BB & D & L). destruct b as [|b].
    2:{ exfalso. destruct (ti_parent _ _ _ _ _ _ I i t b EG) as (p & tp & bp & _ & P' & _). lia. }
    destruct (ti_root _ _ _ _ _ _ I i t EG) as [_ MN]. split; [exact MN|]. intros d' Hd' INC.
    apply In_nth_error in Hd' as (i' & Hi'). destruct (GH i' d' Hi') as (t' & b' & EG' & -> & BB' & D' & L').
    rewrite BB, BB' in *. destruct (HN _ _ D) as (x & X).
    apply (SE b' 0%nat); auto. apply (NEST 0%nat b' t t' x); auto. lia.
  - intros i d Hi P. destruct (GH i d Hi) as (t & b & EG & ED & BB & D & L). subst d. destruct b as [|b].
    { exfalso. now apply P, (ti_root _ _ _ _ _ _ I i t). }
    destruct (ti_parent _ _ _ _ _ _ I i t b EG) as (p & tp & bp & A1 & A2 & A3 & A4 & A5 & A6 & A7).
    assert (HP : (p < length recs)%nat) by (rewrite <- (ti_len _ _ _ _ _ _ I); apply nth_error_Some; congruence).
    destruct (ti_rec _ _ _ _ _ _ I p tp bp A3) as [BP _]. destruct (HN _ _ D) as (x & X).
    assert (SMALL : forall q dq, nth_error recs q = Some dq -> incl (d_group t) (b_basins dq) -> b_basins dq = d_group t \/ incl (d_group tp) (b_basins dq)).
    { intros q dq Hq IQ. destruct (GH q dq Hq) as (tq & bq & EGq & EDq & BBq & Dq & Lq). rewrite BBq in *.
      destruct (Nat.le_gt_cases bq b) as [B|B].
      - right. apply (NEST bq b tq tp x); auto.
      - left. apply (SE bq (S b)); auto. apply (NEST (S b) bq t tq x); auto. }
    exists p, (rec_of recs p). split; [exact A2|]. split; [exact A1|]. split; [now apply nth_error_nth_lt|].
    split; [rewrite BB, BP; exact A6|]. split; [|split; [|split; [|split]]].
    + intros q dq Hq LQ. rewrite BB, BP. intros IQ. destruct (GH q dq Hq) as (tq & bq & EGq & EDq & BBq & Dq & Lq). rewrite BBq in *.
      pose proof (ti_sorted _ _ _ _ _ _ I q i _ _ _ _ LQ EGq EG) as SB.
      destruct (Nat.eq_dec bq (S b)) as [->|NB].
      * exfalso. assert (tq = t) as -> by (apply (H1 (S b) tq t x); auto). assert (q = i) by (eapply UNIQ; eauto). lia.
      * apply (NEST bq b tq tp x); auto. lia.
    + intros dq Hq. apply In_nth_error in Hq as (q & Hq). rewrite BB, BP. now apply (SMALL q dq).
    + (* all children give the same value *)
      assert (LAST : forall c tc bc, nth_error gh c = Some (tc, S bc) -> b_parent (rec_of recs c) = Z.of_nat p -> bc = b).
      { intros c tc bc EC PC. destruct (ti_parent _ _ _ _ _ _ I c tc bc EC) as (p' & tp' & bp' & _ & C2 & C3 & _ & C5 & C6 & _).
        assert (p' = p) by lia. subst p'. rewrite A3 in C3. injection C3 as <- <-.
        destruct (ti_birth _ _ _ _ _ _ I c tc _ EC) as [_ DC]. destruct (HN _ _ DC) as (xc & XC).
        destruct (ATI _ _ DC) as [LC _].
        destruct (lt_eq_lt_dec bc b) as [[LT|EQ]|GT]; [exfalso|exact EQ|exfalso].
        - destruct (H3 bc (S bc) b tp tp ltac:(lia) ltac:(lia) A5 C5 eq_refl) as [_ T].
          assert (tc = tp) as -> by (apply (H1 (S bc) tc tp xc); auto). now apply (ti_new _ _ _ _ _ _ I c tp bc EC).
        - destruct (H3 b (S b) bc tp tp ltac:(lia) ltac:(lia) C5 A5 eq_refl) as [_ T].
          assert (t = tp) as -> by (apply (H1 (S b) t tp x); auto). now apply (ti_new _ _ _ _ _ _ I i tp b EG). }
      destruct (ti_max _ _ _ _ _ _ I p tp bp A3) as [(c & Hc & C1 & C2)|[C1 _]].
      * rewrite C2. f_equal. destruct (nth_error gh c) as [[tc [|bc]]|] eqn:EC.
        -- destruct (ti_root _ _ _ _ _ _ I c tc EC) as [R _]. lia.
        -- destruct (ti_parent _ _ _ _ _ _ I c tc bc EC) as (p' & tp' & bp' & _ & _ & _ & _ & _ & _ & C7).
           rewrite C7, A7. now rewrite (LAST c tc bc EC C1).
        -- apply nth_error_None in EC. rewrite (ti_len _ _ _ _ _ _ I) in EC. lia.
      * exfalso. apply (C1 i); [|exact A2]. apply nth_error_Some. congruence.
    + rewrite A7. destruct bp as [|bp].
      * rewrite (proj2 (ti_root _ _ _ _ _ _ I p tp A3)). destruct (ATI b tp A5) as [_ A]. destruct (LV _ A) as (_ & _ & y & z & H). now apply (MD y z).
      * destruct (ti_parent _ _ _ _ _ _ I p tp bp A3) as (p' & tp' & bp' & _ & _ & _ & _ & _ & _ & C7). rewrite C7. apply VALE. lia.
    + intros PP. rewrite A7. destruct bp as [|bp].
      * exfalso. now apply PP, (ti_root _ _ _ _ _ _ I p tp).
      * destruct (ti_parent _ _ _ _ _ _ I p tp bp A3) as (p' & tp' & bp' & _ & _ & _ & _ & _ & _ & C7). rewrite C7. apply VAL. lia.
  - intros i d x Hi P BX NC. destruct (GH i d Hi) as (t & b & EG & ED & BB & D & L). subst d. destruct b as [|b].
    { exfalso. now apply P, (ti_root _ _ _ _ _ _ I i t). }
    destruct (ti_max _ _ _ _ _ _ I i t _ EG) as [(c & Hc & C1 & _)|[_ C2]].
    + exfalso. apply (NC (rec_of recs c)); [now apply nth_In|exact C1].
    + rewrite C2, <- BB, BX. reflexivity.
  - intros i d i' d' x Hi Hi' N P X X'. destruct (GH i d Hi) as (t & b & EG & ED & BB & D & L), (GH i' d' Hi') as (t' & b' & EG' & ED' & BB' & D' & L'). rewrite BB in X. rewrite BB' in X'. subst d d'. apply N.
    assert (b = b') as <-.
    { destruct b as [|b], b' as [|b']; [reflexivity| | |f_equal; exact (SAME _ _ _ _ _ _ EG EG' P)].
      - destruct (ti_root _ _ _ _ _ _ I i t EG) as [R _]. destruct (ti_parent _ _ _ _ _ _ I i' t' b' EG') as (p & tp & bp & _ & R' & _). lia.
      - destruct (ti_root _ _ _ _ _ _ I i' t' EG') as [R _]. destruct (ti_parent _ _ _ _ _ _ I i t b EG) as (p & tp & bp & _ & R' & _). lia. }
    assert (t = t') as <- by (now apply (H1 b t t' x)). now apply (UNIQ i i' t b b).
  - intros d Hd P. apply In_nth_error in Hd as (i & Hi). destruct (GH i d Hi) as (t & b & EG & ED & BB & D & L). subst d. destruct b as [|b].
    { exfalso. now apply P, (ti_root _ _ _ _ _ _ I i t). }
    destruct (ti_parent _ _ _ _ _ _ I i t b EG) as (p & tp & bp & _ & _ & _ & _ & A5 & _ & A7). rewrite A7. destruct (ATI b tp A5) as [_ A]. destruct (LV _ A) as (_ & _ & y & z & H). eauto.
Qed.
