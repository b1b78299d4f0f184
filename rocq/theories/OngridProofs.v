From Verif Require Import Base GridModel GridProofs NeighModel NeighSpec NeighProofs RootsModel RootsSpec RootsProofs.
From Coq Require Import ZifyBool ZifyNat.

Section Ongrid.
Variables nx ny nz : Z.
Hypothesis Hx : 0 < nx.
Hypothesis Hy : 0 < ny.
Hypothesis Hz : 0 < nz.
Notation N := (Z.to_nat (nx * ny * nz)).
Notation in_grid := (in_grid nx ny nz).
Notation num := (voxel_number ny nz).

Variable data : arr3 Q.
Variable nbs : list (offset * Q).
Hypothesis Hnbs : forall s d, In (s, d) nbs -> unit_offset s /\ (0 < d)%Q.

Notation best v := (snd (get_best_neighbor nx ny nz data v nbs)).
Notation highest := (locally_highest nx ny nz data (map fst nbs)).
Notation steepest := (steepest nx ny nz data nbs).
Notation ascends := (ascends nx ny nz data nbs).

Lemma best_steepest v : in_grid v -> (highest v /\ best v = v) \/ (steepest v (best v) /\
  (value_at data v < value_at data (best v))%Q /\ ~ highest v).
Proof.
  intros Hv. pose proof (best_neighbor_spec nx ny nz Hx Hy Hz data v Hv nbs Hnbs) as S.
  pose proof (best_neighbor_fixed_iff nx ny nz Hx Hy Hz data v nbs Hv Hnbs) as F.
  destruct (get_best_neighbor nx ny nz data v nbs) as [t w]. cbn [snd] in *.
  destruct S as [(_ & E & _)|(pre & d & post & q & E & Ht & L & Hs & Hpre & Hpost)].
  - left. split; [now apply F|exact E].
  - right. split; [|split; [exact L|]].
    + exists pre, t, d, post, q. repeat split; auto.
      destruct (Hnbs t d) as [_ D]; [rewrite E; apply in_elt|].
      destruct Hs as (w' & Hw' & Eq). cbn [fst snd] in *.
      pose proof (ptarget_fun nx ny nz _ _ _ _ Hw' Ht) as ->.
      rewrite Eq. apply (proj2 (div_pos_sign _ d D)). lra.
    + intro H. apply F in H. subst w. lra.
Qed.

Lemma steepest_fun v w : in_grid v -> steepest v w -> w = best v.
Proof.
  intros Hv (pre & s & d & post & q & E & Ht & Hs & Hq & Hpre & Hpost).
  pose proof (best_neighbor_spec nx ny nz Hx Hy Hz data v Hv nbs Hnbs) as S.
  destruct (get_best_neighbor nx ny nz data v nbs) as [t u]. cbn [snd].
  assert (Hsd : In (s, d) nbs) by (rewrite E; apply in_elt).
  destruct (Hnbs s d Hsd) as [Us Ds].
  destruct S as [(_ & _ & H)|(pre' & d' & post' & q' & E' & Ht' & L & Hs' & Hpre' & Hpost')].
  - exfalso. specialize (H s d w Hsd Ht). destruct Hs as (w' & Hw' & Eq). cbn [fst snd] in *.
    pose proof (ptarget_fun nx ny nz _ _ _ _ Hw' Ht) as ->.
    rewrite Eq in Hq. apply (proj1 (div_pos_sign _ d Ds)) in Hq. lra.
  - rewrite E in E'.
    assert (C : pre = pre' /\ (s, d) = (t, d')).
    { clear -E' Hpre Hpost Hpre' Hpost' Hs Hs'. revert pre' E' Hpre'.
      induction pre as [|x pre IH]; intros [|x' pre'] E' Hpre'; simpl in E'.
      - injection E' as E1 E2. subst. auto.
      - injection E' as E1 E2. subst. exfalso.
        assert (q < q')%Q by (apply (Hpre' (s, d) q); [now left|exact Hs]).
        assert (q' <= q)%Q by (apply (Hpost (t, d') q'); [apply in_elt|exact Hs']). lra.
      - injection E' as E1 E2. subst. exfalso.
        assert (q' < q)%Q by (apply (Hpre (t, d') q'); [now left|exact Hs']).
        assert (q <= q')%Q by (apply (Hpost' (s, d) q); [apply in_elt|exact Hs]). lra.
      - injection E' as E1 E2. subst x'. destruct (IH) with (pre' := pre') as [-> ->]; auto.
        + intros nb q0 Hi. apply Hpre. now right.
        + intros nb q0 Hi. apply Hpre'. now right. }
    destruct C as [_ [= -> _]]. eapply (ptarget_fun nx ny nz); eauto.
Qed.

(** number of voxels above a value *)
Definition above (v : Z * Z * Z) : nat :=
  length (filter (fun w => Qltb (value_at data v) (value_at data w)) (voxels nx ny nz)).

Lemma filter_length_lt {A} (f g : A -> bool) l x :
  (forall y, f y = true -> g y = true) -> In x l -> f x = false -> g x = true ->
  (length (filter f l) < length (filter g l))%nat.
Proof.
  intros Hfg. induction l as [|a t IH]; intros Hi Hf Hg; [contradiction|]. simpl.
  assert (LE : (length (filter f t) <= length (filter g t))%nat).
  { clear -Hfg. induction t as [|a t IH]; simpl; [lia|].
    destruct (f a) eqn:E; [rewrite (Hfg a E); simpl; lia|]. destruct (g a); simpl; lia. }
  destruct Hi as [->|Hi].
  - rewrite Hf, Hg. simpl. lia.
  - specialize (IH Hi Hf Hg). destruct (f a) eqn:E; [rewrite (Hfg a E); simpl; lia|].
    destruct (g a); simpl; lia.
Qed.

Lemma above_lt v w : in_grid w -> (value_at data v < value_at data w)%Q -> (above w < above v)%nat.
Proof.
  intros Hw L. unfold above. apply filter_length_lt with (x := w).
  - intros u Hu. apply Qltb_lt in Hu. apply Qltb_lt. lra.
  - now apply in_voxels.
  - apply Qltb_ge. apply Qle_refl.
  - now apply Qltb_lt.
Qed.

Lemma best_in_grid v : in_grid v -> in_grid (best v).
Proof. intro H. now apply best_neighbor_in_grid. Qed.

Lemma ascends_exists v : in_grid v -> exists m, ascends v m /\ in_grid m /\ highest m /\
   (value_at data v <= value_at data m)%Q.
Proof.
  remember (above v) as k eqn:Ek. revert v Ek.
  induction k as [k IH] using lt_wf_ind. intros v Ek Hv.
  destruct (best_steepest v Hv) as [[H _]|(S & L & _)].
  - exists v. repeat split; auto using ascends_top, Qle_refl.
  - pose proof (best_in_grid v Hv) as Hw. pose proof (above_lt v (best v) Hw L) as D.
    destruct (IH (above (best v)) ltac:(lia) (best v) eq_refl Hw) as (m & A & G & H & Le).
    exists m. repeat split; auto; [|lra]. eapply ascends_step; eauto.
Qed.

Lemma steepest_not_highest v w : in_grid v -> steepest v w -> ~ highest v.
Proof.
  intros Hv S H. pose proof (steepest_fun v w Hv S) as ->.
  destruct (best_steepest v Hv) as [[_ E]|(_ & _ & NH)]; [|contradiction].
  destruct S as (pre & s & d & post & q & E1 & Ht & Hs & Hq & _).
  destruct (Hnbs s d) as [_ D]; [rewrite E1; apply in_elt|].
  destruct Hs as (w' & Hw' & Eq). cbn [fst snd] in *.
  pose proof (ptarget_fun nx ny nz _ _ _ _ Hw' Ht) as ->. rewrite E in Eq.
  rewrite Eq in Hq. apply (proj1 (div_pos_sign _ d D)) in Hq. lra.
Qed.

Lemma ascends_fun v m1 : ascends v m1 -> in_grid v -> forall m2, ascends v m2 -> m1 = m2.
Proof.
  induction 1 as [v H|v w m S A IH]; intros Hv m2 H2.
  - inversion H2 as [v' H'|v' w' m' S' A']; subst; [reflexivity|].
    exfalso. eapply steepest_not_highest; eauto.
  - pose proof (steepest_fun v w Hv S) as Ew.
    inversion H2 as [v' H'|v' w' m' S' A'].
    + exfalso. subst. exact (steepest_not_highest _ _ Hv S H').
    + subst v' m'. pose proof (steepest_fun v w' Hv S') as Ew'. apply IH.
      * subst w. now apply best_in_grid.
      * congruence.
Qed.

(** ** the labels *)
Variable vac : arr3 bool.
Hypothesis Hsub : forall v w, in_grid v -> in_grid w -> value_at vac w = true ->
  value_at vac v = false -> (value_at data w <= value_at data v)%Q.
Variable mx : arr3 bool.
Hypothesis Hmx : forall v, in_grid v ->
  (value_at mx v = true <-> value_at vac v = false /\ highest v).

Variable L0 : list Z.
Hypothesis HL0 : length L0 = N.
Hypothesis Hvac0 : forall v, in_grid v -> value_at vac v = true -> nth_error L0 (num v) = Some (-1).
Hypothesis Hmax0 : forall m, in_grid m -> value_at mx m = true ->
  exists b, in_grid b /\ value_at mx b = true /\
    nth_error L0 (num m) = Some (Z.of_nat (num b)) /\
    nth_error L0 (num b) = Some (Z.of_nat (num b)).

Variable order : list nat.
Hypothesis Hord : covers nx ny nz order.

Notation P := (get_steepest_pointers nx ny nz data nbs vac mx order L0).

Lemma P_length : length P = N.
Proof. unfold get_steepest_pointers. now rewrite par_loop_length. Qed.

Lemma P_nth v : in_grid v -> nth_error P (num v) =
  if value_at vac v then Some (-1)
  else if value_at mx v then nth_error L0 (num v)
  else Some (Z.of_nat (num (best v))).
Proof.
  intros Hv. pose proof (voxel_number_lt nx ny nz Hx Hy Hz v Hv) as L.
  rewrite (nth_error_nth_lt P (num v) 0) by (rewrite P_length; exact L).
  unfold get_steepest_pointers. rewrite par_loop_nth by (rewrite HL0; exact L).
  replace (existsb (Nat.eqb (num v)) order) with true.
  2:{ symmetry. apply existsb_exists. exists (num v). split; [now apply Hord|apply Nat.eqb_refl]. }
  unfold steepest_cell. rewrite (unflat_voxel_number nx ny nz v Hv).
  change @rd with @value_at. destruct (value_at vac v) eqn:EV.
  - rewrite <- (Hvac0 v Hv EV). symmetry. apply nth_error_nth_lt. rewrite HL0. exact L.
  - destruct (value_at mx v).
    + symmetry. apply nth_error_nth_lt. rewrite HL0. exact L.
    + f_equal. rewrite <- flat_voxel_number. pose proof (best_in_grid v Hv) as Hb.
      destruct (best v) as [[i j] k] eqn:Eb.
      pose proof (coords_flat_range i j k nx ny nz Hb). unfold flat. lia.
Qed.

Lemma nonvac_best v : in_grid v -> value_at vac v = false ->
  (value_at data v < value_at data (best v))%Q -> value_at vac (best v) = false.
Proof.
  intros Hv V L. destruct (value_at vac (best v)) eqn:E; [|reflexivity].
  pose proof (Hsub v (best v) Hv (best_in_grid v Hv) E V). exfalso. lra.
Qed.

Lemma ascends_reaches v m : ascends v m -> in_grid v -> value_at vac v = false ->
  in_grid m /\ value_at mx m = true /\
  exists b, nth_error L0 (num m) = Some (Z.of_nat b) /\ reaches P (num v) b.
Proof.
  induction 1 as [v H|v w m S A IH]; intros Hv V.
  - assert (M : value_at mx v = true) by (apply Hmx; auto). split; [exact Hv|]. split; [exact M|].
    destruct (Hmax0 v Hv M) as (b & Gb & Mb & E1 & E2). exists (num b). split; [exact E1|].
    assert (Vb : value_at vac b = false) by (apply Hmx; auto).
    assert (Rb : reaches P (num b) (num b)).
    { apply reaches_end. rewrite (P_nth b Gb), Vb, Mb. exact E2. }
    apply (reaches_step P (num v) (num b)); [|exact Rb].
    rewrite (P_nth v Hv), V, M. exact E1.
  - assert (NH : ~ highest v) by (eapply steepest_not_highest; eauto).
    pose proof (steepest_fun v w Hv S) as ->.
    destruct (best_steepest v Hv) as [[H _]|(_ & L & _)]; [contradiction|].
    pose proof (nonvac_best v Hv V L) as Vw.
    destruct (IH (best_in_grid v Hv) Vw) as (Gm & Mm & b & E & R).
    split; [exact Gm|]. split; [exact Mm|]. exists b. split; [exact E|].
    apply (reaches_step P (num v) (num (best v))); [|exact R].
    rewrite (P_nth v Hv), V. destruct (value_at mx v) eqn:M; [|reflexivity].
    exfalso. apply NH. now apply Hmx.
Qed.

Lemma num_surj i x : nth_error P i = Some x -> exists v, in_grid v /\ num v = i.
Proof.
  intros H. assert (L : (i < N)%nat) by (rewrite <- P_length; apply nth_error_Some; congruence).
  destruct (unflat_in_grid nx ny nz Hx Hy Hz i L) as [G E]. eauto.
Qed.

Lemma P_good : good_pointers P.
Proof.
  split.
  - intros i x H Hne. destruct (num_surj i x H) as (v & Hv & <-). rewrite (P_nth v Hv) in H.
    destruct (value_at vac v) eqn:V; [congruence|].
    assert (K : forall u, in_grid u -> value_at vac u = false -> nth_error P (num u) <> Some (-1)).
    { intros u Hu Vu. rewrite (P_nth u Hu), Vu. destruct (value_at mx u) eqn:M.
      - destruct (Hmax0 u Hu M) as (b & _ & _ & E & _). rewrite E. intros [= E']. lia.
      - intros [= E']. lia. }
    destruct (value_at mx v) eqn:M.
    + destruct (Hmax0 v Hv M) as (b & Gb & Mb & E & E2). rewrite E in H. injection H as <-.
      pose proof (voxel_number_lt nx ny nz Hx Hy Hz b Gb). rewrite P_length. split; [lia|].
      rewrite Nat2Z.id. apply K; [exact Gb|]. now apply Hmx.
    + injection H as <-. pose proof (best_in_grid v Hv) as Gb.
      pose proof (voxel_number_lt nx ny nz Hx Hy Hz _ Gb). rewrite P_length. split; [lia|].
      rewrite Nat2Z.id. apply K; [exact Gb|].
      destruct (best_steepest v Hv) as [[Hh _]|(_ & L & _)]; [|now apply nonvac_best].
      assert (value_at mx v = true) by (apply Hmx; auto). congruence.
  - intros i x H Hne. destruct (num_surj i x H) as (v & Hv & <-).
    assert (V : value_at vac v = false).
    { rewrite (P_nth v Hv) in H. destruct (value_at vac v); congruence. }
    destruct (ascends_exists v Hv) as (m & A & _).
    destruct (ascends_reaches v m A Hv V) as (_ & _ & b & _ & R). eauto.
Qed.

Variable num_vacuum : Z.
Hypothesis Hnv : num_vacuum = 0 -> forall v, in_grid v -> value_at vac v = false.

Theorem ongrid_correct fuel : (Nat.log2_up N < fuel)%nat ->
  exists lab root nb,
    ongrid_labels nx ny nz data nbs vac mx num_vacuum order fuel L0 = Done lab /\
    dense_labelling root lab nb /\
    length root = N /\
    forall v, in_grid v ->
      (value_at vac v = true -> nth_error root (num v) = Some (-1)) /\
      (value_at vac v = false -> exists m, ascends v m /\ in_grid m /\ value_at mx m = true /\
         nth_error root (num v) = nth_error L0 (num m)).
Proof.
  intros Hf. destruct (get_roots_correct P num_vacuum fuel P_good) as (q & E & Lq & Hq).
  { intros E Hin. apply In_nth_error in Hin as (i & Hi). destruct (num_surj i _ Hi) as (v & Hv & <-).
    rewrite (P_nth v Hv), (Hnv E v Hv) in Hi. destruct (value_at mx v) eqn:M.
    - destruct (Hmax0 v Hv M) as (b & _ & _ & E1 & _). rewrite E1 in Hi. injection Hi as Hi. lia.
    - injection Hi as Hi. lia. }
  { rewrite P_length. exact Hf. }
  exists (compact q), q, (n_labels q). unfold ongrid_labels. rewrite E. split; [reflexivity|].
  split; [|split].
  - apply compact_dense. intros x Hin. apply In_nth_error in Hin as (i & Hi).
    assert (exists y, nth_error P i = Some y) as (y & Hyp).
    { destruct (nth_error P i) eqn:E0; eauto. apply nth_error_None in E0.
      assert (i < length q)%nat by (apply nth_error_Some; congruence). lia. }
    destruct (Hq i y Hyp) as [H1 H2]. destruct (Z.eq_dec y (-1)) as [->|Hne].
    + rewrite (H1 eq_refl) in Hi. injection Hi as <-. lia.
    + destruct (H2 Hne) as (r & Er & _). rewrite Er in Hi. injection Hi as <-. lia.
  - rewrite Lq. apply P_length.
  - intros v Hv. split.
    + intros V. apply (Hq (num v) (-1)); [|reflexivity]. now rewrite (P_nth v Hv), V.
    + intros V. destruct (ascends_exists v Hv) as (m & A & _).
      destruct (ascends_reaches v m A Hv V) as (Gm & Mm & b & Eb & R).
      exists m. repeat split; auto.
      assert (exists y, nth_error P (num v) = Some y /\ y <> -1) as (y & Hyp & Hne).
      { rewrite (P_nth v Hv), V. destruct (value_at mx v) eqn:M.
        - destruct (Hmax0 v Hv M) as (b' & _ & _ & E1 & _). rewrite E1. eexists; split; [reflexivity|lia].
        - eexists; split; [reflexivity|lia]. }
      destruct (Hq (num v) y Hyp) as [_ H2]. destruct (H2 Hne) as (r & Er & Rr).
      rewrite Er, Eb. do 2 f_equal. eapply reaches_fun; eauto.
Qed.
End Ongrid.
