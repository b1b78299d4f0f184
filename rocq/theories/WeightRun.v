(** The weight method on the grid: from [MethodBase.run] to the final charges. *)
From Verif Require Import Base GridModel GridProofs NeighModel NeighSpec NeighProofs RootsModel RootsSpec
  RootsProofs OngridProofs CoreLemmas ChargeModel ChargeProofs UnionModel UnionSpec UnionProofs LabelsModel LabelsSpec LabelsProofs
  RunModel RunProofs WeightModel WeightSpec WeightProofs.
From Coq Require Import ZifyBool ZifyNat.

Lemma key_insert_perm key x l : Permutation (x :: l) (key_insert key x l).
Proof.
  induction l as [|y t IH]; cbn; [reflexivity|]. destruct (Qle_bool (key x) (key y)); [reflexivity|].
  rewrite perm_swap. now constructor.
Qed.
Lemma key_sort_perm key l : Permutation l (key_sort key l).
Proof.
  induction l as [|x t IH]; cbn; [constructor|]. rewrite <- key_insert_perm. now constructor.
Qed.
Lemma key_insert_sorted key x l : StronglySorted (fun a b => key a <= key b)%Q l ->
  StronglySorted (fun a b => key a <= key b)%Q (key_insert key x l).
Proof.
  induction l as [|y t IH]; cbn; intros S; [repeat constructor|]. inversion S as [|? ? S1 F1]; subst. rewrite Forall_forall in F1.
  destruct (Qle_bool (key x) (key y)) eqn:E.
  - apply Qle_bool_iff in E. constructor; [exact S|]. rewrite Forall_forall. intros z [<-|Hz]; [exact E|]. specialize (F1 z Hz). lra.
  - apply Qle_bool_false in E. constructor; [now apply IH|]. rewrite Forall_forall. intros z Hz.
    apply (Permutation_in _ (Permutation_sym (key_insert_perm key x t))) in Hz as [<-|Hz]; [lra|auto].
Qed.
Lemma key_sort_sorted key l : StronglySorted (fun a b => key a <= key b)%Q (key_sort key l).
Proof. induction l as [|x t IH]; cbn; [constructor|now apply key_insert_sorted]. Qed.

Lemma sorted_app_one {A} (R : A -> A -> Prop) l x : StronglySorted R l -> (forall y, In y l -> R y x) -> StronglySorted R (l ++ [x]).
Proof.
  induction l as [|y t IH]; cbn; intros S H; [repeat constructor|]. inversion S as [|? ? S1 F1]; subst.
  constructor; [apply IH; auto|]. rewrite Forall_forall in *. intros z Hz. apply in_app_or in Hz as [Hz|[<-|[]]]; auto.
Qed.
Lemma sorted_rev {A} (R : A -> A -> Prop) l : StronglySorted R l -> StronglySorted (fun a b => R b a) (rev l).
Proof.
  induction l as [|x t IH]; cbn; intros S; [constructor|]. inversion S as [|? ? S1 F1]; subst. rewrite Forall_forall in F1.
  apply sorted_app_one; [auto|]. intros y Hy. apply F1. now apply in_rev.
Qed.

Lemma result_conserved {V} (ref chg : V -> Q) pv top vor best cells K basin share lab charges volumes :
  weight_result ref chg pv top vor best cells K basin share lab charges volumes -> conserved chg pv cells charges volumes.
Proof.
  intros [W1 W2 W3 [L1 L2] W4 W5 _ _ _ _]. split.
  - rewrite qsum_nth_seq, L1. rewrite (qsum_map_ext _ (fun b => qsum (map (fun v => chg v * share v b)%Q cells))).
    + rewrite (qsum_swap (fun b v => (chg v * share v b)%Q)). apply qsum_map_ext. intros v Hv. rewrite qsum_map_scale, W3 by exact Hv. ring.
    + intros b Hb. apply in_seq in Hb. apply W4. lia.
  - rewrite qsum_nth_seq, L2. rewrite (qsum_map_ext _ (fun b => qsum (map (fun v => pv * share v b)%Q cells))).
    + rewrite (qsum_swap (fun b v => (pv * share v b)%Q)). rewrite (qsum_map_ext _ (fun _ => pv)).
      * rewrite qsum_const. ring.
      * intros v Hv. rewrite qsum_map_scale, W3 by exact Hv. ring.
    + intros b Hb. apply in_seq in Hb. apply W5. lia.
Qed.

Lemma NoDup_app_iff' {A} (l1 l2 : list A) : NoDup (l1 ++ l2) <-> NoDup l1 /\ NoDup l2 /\ (forall x, In x l1 -> In x l2 -> False).
Proof.
  induction l1 as [|a t IH]; cbn.
  - split; [intros H; split; [constructor|]; split; [exact H|tauto]|tauto].
  - split.
    + intros H. inversion H as [|? ? H2 H3]; subst. apply IH in H3 as (A1 & A2 & A3). rewrite in_app_iff in H2. split; [constructor; tauto|].
      split; [exact A2|]. intros x [->|Hx] Hx'; [tauto|eauto].
    + intros (H1 & H2 & H3). inversion H1; subst. constructor.
      * rewrite in_app_iff. intros [K|K]; [contradiction|]. eapply H3; eauto.
      * apply IH. split; [assumption|]. split; [exact H2|]. eauto.
Qed.

Section Run.
Variables nx ny nz : Z.
Hypothesis Hx : 0 < nx.
Hypothesis Hy : 0 < ny.
Hypothesis Hz : 0 < nz.
Notation N := (Z.to_nat (nx * ny * nz)).
Notation grid := (in_grid nx ny nz).
Notation num := (voxel_number ny nz).
Notation vox := (fun i : nat => unflat ny nz (Z.of_nat i)).
Variables data charge : arr3 Q.
Variable nbs : list (offset * Q).
Hypothesis Hnbs : forall s d, In (s, d) nbs -> unit_offset s /\ (0 < d)%Q.
Variable facets : list (offset * Q).
Hypothesis Hfacets : forall s a, In (s, a) facets -> small_offset nx ny nz s /\ (0 < a)%Q.
Variable vac : arr3 bool.
Hypothesis Hvac : forall v w, grid v -> grid w -> value_at vac w = true -> value_at vac v = false ->
  (value_at data w < value_at data v)%Q.
Hypothesis Hfloor : forall v, grid v -> (low_start < value_at data v)%Q.
Notation ismax := (is_maximum nx ny nz data (map fst nbs) vac).
Variable order1 : list nat.
Hypothesis Hord1 : covers nx ny nz order1.
Notation mask0 := (get_maxima nx ny nz data (map fst nbs) vac false order1).
Notation maxima := (argwhere nx ny nz mask0).
Variable same : list (Z * Z * Z) -> nat -> nat -> outcome bool.
Variable sorted : list (Z * Z * Z) -> list nat.
Hypothesis Hsame : forall l a b, (a < length l)%nat -> (b < length l)%nat -> exists r, same l a b = Done r.
Hypothesis Hsorted : forall l, Permutation (sorted l) (seq 0 (length l)) /\
  StronglySorted (fun a b => (value_at data (nth b l (0, 0, 0)%Z) <= value_at data (nth a l (0, 0, 0)%Z))%Q) (sorted l).

Notation order := (voxel_order nx ny nz data vac).
Notation ref := (at_flat ny nz data).
Notation chg := (at_flat ny nz charge).
Notation vor := (vor_of nx ny nz facets).
Notation best := (best_of nx ny nz data nbs).
Notation bestr := (fun v n => n = best v).
Notation mask := (fun v => nth v mask0 false).

Lemma step_small v s : grid v -> small_offset nx ny nz s ->
  periodic_target nx ny nz v s (step_to nx ny nz v s) /\ grid (step_to nx ny nz v s).
Proof.
  destruct v as [[i j] k], s as [[a b] c]. unfold step_to, periodic_target, wrap_point.
  intros (H1 & H2 & H3) (U1 & U2 & U3). rewrite !wrap1_mod by lia. split; [reflexivity|].
  unfold in_grid. repeat split; apply Z.mod_pos_bound; lia.
Qed.

Lemma order_in v : In v order <-> (v < N)%nat /\ value_at vac (vox v) = false.
Proof.
  unfold voxel_order. rewrite <- in_rev. split.
  - intros H. apply (Permutation_in _ (Permutation_sym (key_sort_perm _ _))) in H. apply filter_In in H as [H1 H2].
    apply in_seq in H1. unfold at_flat in H2. change (@rd bool) with (@value_at bool) in H2.
    destruct (value_at vac (vox v)); [discriminate|]. split; [lia|reflexivity].
  - intros [H1 H2]. apply (Permutation_in _ (key_sort_perm _ _)). apply filter_In. split; [apply in_seq; lia|].
    unfold at_flat. change (@rd bool) with (@value_at bool). now rewrite H2.
Qed.
Lemma order_num v : grid v -> (In (num v) order <-> value_at vac v = false).
Proof.
  intros G. rewrite order_in, (unflat_voxel_number nx ny nz v G).
  pose proof (voxel_number_lt nx ny nz Hx Hy Hz v G). tauto.
Qed.
Lemma order_nodup : NoDup order.
Proof.
  unfold voxel_order. apply NoDup_rev. eapply Permutation_NoDup; [apply key_sort_perm|]. apply NoDup_filter, seq_NoDup.
Qed.
Lemma order_sorted : StronglySorted (fun a b => ref b <= ref a)%Q order.
Proof.
  unfold voxel_order. apply (sorted_rev (fun a b => ref a <= ref b)%Q). apply key_sort_sorted.
Qed.

Lemma flat_nat_num w : flat_nat ny nz w = num w.
Proof. unfold flat_nat. apply flat_voxel_number. Qed.

Lemma ref_num v : grid v -> ref (num v) = value_at data v.
Proof. intros G. unfold at_flat. rewrite (unflat_voxel_number nx ny nz v G). reflexivity. Qed.

Lemma nonmax_higher v : grid v -> value_at vac v = false -> ~ ismax v ->
  grid (snd (get_best_neighbor nx ny nz data v nbs)) /\ (value_at data v < value_at data (snd (get_best_neighbor nx ny nz data v nbs)))%Q.
Proof.
  intros G V NM. destruct (best_steepest nx ny nz Hx Hy Hz data nbs Hnbs v G) as [[H _]|[H L]].
  - exfalso. apply NM. split; [exact G|]. split; assumption.
  - split; [now apply best_in_grid|apply L].
Qed.

Lemma mask_num v : grid v -> (mask (num v) = true <-> ismax v).
Proof. intros G. now apply mask0_spec. Qed.

Lemma uphill_in v n : In v order -> mask v = false -> uphill ref vor bestr v n -> In n order /\ (ref v < ref n)%Q.
Proof.
  intros Hv Mv U. apply order_in in Hv as [Lv Vv]. destruct (unflat_in_grid nx ny nz Hx Hy Hz v Lv) as [G E].
  set (u := vox v) in *.
  assert (G1 : forall w, grid w -> (value_at data u < value_at data w)%Q -> In (num w) order /\ (ref v < ref (num w))%Q).
  { intros w Gw L. split.
    - apply order_num; [exact Gw|]. destruct (value_at vac w) eqn:Vw; [|reflexivity]. specialize (Hvac u w G Gw Vw Vv). lra.
    - rewrite ref_num by exact Gw. exact L. }
  destruct U as [(a & I & L)|[NH ->]].
  - unfold vor_of in I. apply in_map_iff in I as ([s a'] & [= <- <-] & I). cbn [fst snd] in *. destruct (Hfacets s a' I) as [Hs _].
    fold u. fold u in L. destruct (step_small u s G Hs) as [_ Gw]. rewrite flat_nat_num in *. apply G1; [exact Gw|].
    rewrite ref_num in L by exact Gw. exact L.
  - unfold best_of. fold u. rewrite flat_nat_num. destruct (nonmax_higher u G Vv) as [Gw L].
    + intros M. apply (mask_num u G) in M. congruence.
    + now apply G1.
Qed.

(** Sorting of the representatives. *)
Notation fl := (flat_nat ny nz).
Lemma rep_insert_perm x l : Permutation (x :: l) (rep_insert ny nz x l).
Proof.
  induction l as [|y t IH]; cbn [rep_insert]; [reflexivity|]. destruct (Nat.leb _ _); [reflexivity|].
  rewrite perm_swap. now constructor.
Qed.
Lemma sort_reps_perm l : Permutation l (sort_maxima_frac ny nz l).
Proof.
  induction l as [|x t IH]; cbn; [constructor|]. fold (sort_maxima_frac ny nz t). rewrite <- rep_insert_perm. now constructor.
Qed.
Lemma sort_reps_sorted l : NoDup (map (fun b => fl (fst b)) l) ->
  StronglySorted (fun a b => (fl (fst a) < fl (fst b))%nat) (sort_maxima_frac ny nz l).
Proof.
  induction l as [|x t IH]; cbn; intros ND; [constructor|]. fold (sort_maxima_frac ny nz t). inversion ND as [|? ? NI ND']; subst.
  specialize (IH ND').
  assert (NI' : forall y, In y (sort_maxima_frac ny nz t) -> fl (fst y) <> fl (fst x)).
  { intros y Iy E. apply NI. rewrite <- E. apply (in_map (fun b => fl (fst b))).
    now apply (Permutation_in _ (Permutation_sym (sort_reps_perm t))). }
  clear - IH NI'. induction (sort_maxima_frac ny nz t) as [|y l IHl]; cbn [rep_insert]; [repeat constructor|].
  inversion IH as [|? ? S1 F1]; subst. rewrite Forall_forall in F1.
  destruct (Nat.leb (fl (fst x)) (fl (fst y))) eqn:L.
  - assert (fl (fst y) <> fl (fst x)) by (apply NI'; now left). apply Nat.leb_le in L.
    constructor; [exact IH|]. rewrite Forall_forall. intros z [<-|Iz]; [lia|]. specialize (F1 z Iz). lia.
  - constructor; [apply IHl; [exact S1|intros; apply NI'; now right]|]. rewrite Forall_forall. intros z Iz.
    apply (Permutation_in _ (Permutation_sym (rep_insert_perm x l))) in Iz as [<-|Iz]; [|auto]. apply Nat.leb_gt in L. lia.
Qed.

(** In a strictly increasing list the number of smaller entries is the position. *)
Lemma searchsorted_nth (l : list nat) : StronglySorted lt l -> forall i x, nth_error l i = Some x -> searchsorted l x = i.
Proof.
  unfold searchsorted. induction 1 as [|a t S IH F]; intros i x H; [now destruct i|]. rewrite Forall_forall in F.
  destruct i as [|i].
  - injection H as ->. cbn [filter]. rewrite Nat.ltb_irrefl.
    assert (G : forall u, (forall y, In y u -> (x < y)%nat) -> filter (fun y => Nat.ltb y x) u = []).
    { induction u as [|y u IHu]; cbn [filter]; intros G; [reflexivity|]. assert (x < y)%nat by (apply G; now left).
      replace (Nat.ltb y x) with false by (symmetry; apply Nat.ltb_ge; lia). apply IHu. intros; apply G; now right. }
    rewrite (G t F). reflexivity.
  - cbn in H. cbn [filter]. assert (a < x)%nat by (apply F; eapply nth_error_In; eauto).
    replace (Nat.ltb a x) with true by (symmetry; now apply Nat.ltb_lt). cbn [length]. f_equal. now apply IH.
Qed.

Notation cells := (outside_vacuum nx ny nz vac).
Notation vorV := (periodic_neighbours nx ny nz facets).
Notation stpV := (steepest nx ny nz data nbs).
Notation up := (uphill (value_at data) vorV stpV).

Lemma vorV_step v : grid v -> vorV v = map (fun sa : offset * Q => (step_to nx ny nz v (fst sa), snd sa)) facets.
Proof.
  intros G. unfold periodic_neighbours. apply map_ext_in. intros [s a] I. destruct (Hfacets s a I) as [Hs _]. cbn [fst snd].
  destruct (step_small v s G Hs) as [P _]. destruct v as [[i j] k], s as [[x y] z]. cbn in P. unfold step_to. now rewrite P.
Qed.
Lemma vor_num v : grid v -> vor (num v) = map (fun na : (Z * Z * Z) * Q => (num (fst na), snd na)) (vorV v).
Proof.
  intros G. rewrite vorV_step by exact G. rewrite map_map. unfold vor_of. rewrite (unflat_voxel_number nx ny nz v G).
  apply map_ext. intros [s a]. cbn [fst snd]. now rewrite flat_nat_num.
Qed.
Lemma vorV_grid v n a : grid v -> In (n, a) (vorV v) -> grid n /\ (0 < a)%Q.
Proof.
  intros G. rewrite vorV_step by exact G. intros I. apply in_map_iff in I as ([s x] & [= <- <-] & I).
  destruct (Hfacets s x I) as [Hs Ha]. split; [now apply step_small|exact Ha].
Qed.

Lemma cells_in v : In v cells <-> grid v /\ value_at vac v = false.
Proof.
  unfold outside_vacuum. rewrite filter_In, in_voxels. destruct (value_at vac v); cbn; intuition discriminate.
Qed.
Lemma num_grid_inj v w : grid v -> grid w -> num v = num w -> v = w.
Proof.
  intros Gv Gw E. rewrite <- (unflat_voxel_number nx ny nz v Gv), <- (unflat_voxel_number nx ny nz w Gw). now rewrite E.
Qed.
Lemma voxels_nodup : NoDup (voxels nx ny nz).
Proof.
  unfold voxels.
  assert (G : forall (A B : Type) (f : A -> list B) (g : B -> A) l, (forall a b, In b (f a) -> g b = a) -> (forall a, NoDup (f a)) -> NoDup l -> NoDup (flat_map f l)).
  { intros A B f g l I F. induction l as [|a t IH]; cbn; intros ND; [constructor|]. inversion ND as [|? ? H2 H3]; subst. apply (proj2 (NoDup_app_iff' (f a) (flat_map f t))).
    split; [apply F|]. split; [now apply IH|]. intros b Hb Hb'. apply in_flat_map in Hb' as (a' & Ha' & Hb').
    apply I in Hb, Hb'. subst. congruence. }
  apply (G _ _ _ (fun v : Z * Z * Z => fst (fst v))); [| |apply zrange_NoDup].
  - intros i [[a b] c] H. apply in_flat_map in H as (j & _ & H). apply in_map_iff in H as (k & [= <- <- <-] & _). reflexivity.
  - intros i. apply (G _ _ _ (fun v : Z * Z * Z => snd (fst v))); [| |apply zrange_NoDup].
    + intros j [[a b] c] H. apply in_map_iff in H as (k & [= <- <- <-] & _). reflexivity.
    + intros j. apply FinFun.Injective_map_NoDup; [|apply zrange_NoDup]. intros a b [= ->]. reflexivity.
Qed.
Lemma cells_perm : Permutation (map num cells) order.
Proof.
  apply NoDup_Permutation; [|apply order_nodup|].
  - apply NoDup_map_inj_in; [apply NoDup_filter, voxels_nodup|]. intros u w Hu Hw. apply cells_in in Hu, Hw. apply num_grid_inj; tauto.
  - intros i. rewrite in_map_iff. split.
    + intros (v & <- & Hv). apply cells_in in Hv as [G V]. now apply order_num.
    + intros H. pose proof H as H0. apply order_in in H0 as [L V]. destruct (unflat_in_grid nx ny nz Hx Hy Hz i L) as [G E].
      exists (vox i). split; [exact E|]. now apply cells_in.
Qed.
Lemma uphill_num v n : In v cells -> ~ ismax v -> (up v n <-> grid n /\ uphill ref vor bestr (num v) (num n)).
Proof.
  intros Hv NM. apply cells_in in Hv as [G V].
  assert (BEST : stpV v (snd (get_best_neighbor nx ny nz data v nbs))).
  { destruct (best_steepest nx ny nz Hx Hy Hz data nbs Hnbs v G) as [[H _]|[H _]]; [|exact H].
    exfalso. apply NM. split; [exact G|]. now split. }
  assert (BN : best (num v) = num (snd (get_best_neighbor nx ny nz data v nbs))).
  { unfold best_of. now rewrite (unflat_voxel_number nx ny nz v G), flat_nat_num. }
  assert (GB : grid (snd (get_best_neighbor nx ny nz data v nbs))) by now apply best_in_grid.
  assert (NHE : (forall m a, In (m, a) (vorV v) -> (value_at data m <= value_at data v)%Q) <->
     (forall m a, In (m, a) (vor (num v)) -> (ref m <= ref (num v))%Q)).
  { split.
    - intros H m a I. rewrite vor_num in I by exact G. apply in_map_iff in I as ([w x] & [= <- <-] & I). cbn [fst snd].
      destruct (vorV_grid v w x G I) as [Gw _]. rewrite !ref_num by assumption. eauto.
    - intros H m a I. destruct (vorV_grid v m a G I) as [Gm _]. rewrite <- !ref_num by assumption. apply (H (num m) a).
      rewrite vor_num by exact G. apply in_map_iff. now exists (m, a). }
  split.
  - intros [(a & I & L)|[NH B]].
    + destruct (vorV_grid v n a G I) as [Gn _]. split; [exact Gn|]. left. exists a. rewrite !ref_num by assumption. split; [|exact L].
      rewrite vor_num by exact G. apply in_map_iff. now exists (n, a).
    + apply (steepest_fun nx ny nz Hx Hy Hz data nbs Hnbs v n G) in B. rewrite B in *. split; [exact GB|]. right.
      split; [now apply NHE|]. symmetry. exact BN.
  - intros [Gn [(a & I & L)|[NH B]]].
    + left. rewrite vor_num in I by exact G. apply in_map_iff in I as ([w x] & E & I). cbn [fst snd] in E. injection E as E <-.
      destruct (vorV_grid v w x G I) as [Gw _]. apply num_grid_inj in E; [|assumption|assumption]. subst w. exists x. split; [exact I|].
      now rewrite !ref_num in L by assumption.
    + right. split; [now apply NHE|]. rewrite BN in B. apply num_grid_inj in B; [|assumption|assumption]. now rewrite B.
Qed.
Lemma flow_num (g : nat -> Q) v : grid v ->
  (qsum (map (fun na : nat * Q => if Qltb (ref (num v)) (ref (fst na)) then (ref (fst na) - ref (num v)) * snd na * g (fst na) else 0) (vor (num v))) ==
   qsum (map (fun na : (Z * Z * Z) * Q => if Qltb (value_at data v) (value_at data (fst na)) then (value_at data (fst na) - value_at data v) * snd na * g (num (fst na)) else 0) (vorV v)))%Q.
Proof.
  intros G. rewrite vor_num by exact G. rewrite map_map. apply qsum_map_ext. intros [w a] I. cbn [fst snd].
  destruct (vorV_grid v w a G I) as [Gw _]. rewrite !ref_num by assumption. reflexivity.
Qed.
Lemma outflow_num v : grid v -> (outflow ref vor (num v) == outflow (value_at data) vorV v)%Q.
Proof.
  intros G. unfold outflow. pose proof (flow_num (fun _ => 1%Q) v G) as H.
  rewrite (qsum_map_ext _ (fun na : nat * Q => if Qltb (ref (num v)) (ref (fst na)) then (ref (fst na) - ref (num v)) * snd na * 1 else 0)%Q).
  - rewrite H. apply qsum_map_ext. intros [w a] _. destruct (Qltb _ _); ring.
  - intros [w a] _. destruct (Qltb _ _); ring.
Qed.

Notation n3 := (inject_Z (nx * ny * nz)).
Notation chgV := (fun v => value_at charge v / n3)%Q.

Theorem weight_run_correct fuel vol : (2 * N + 2 <= fuel)%nat -> (Z.of_nat (length maxima) < 10 ^ 6)%Z ->
  let o := weight_run nx ny nz data charge nbs facets vac same sorted order1 fuel vol in
  (o = Raised /\ exists v, In v cells /\ (value_at charge v <= 0)%Q) \/
  exists out L0 reps0 E share z,
    o = Done out /\
    merged nx ny nz data (map fst nbs) vac maxima (same maxima) (sorted maxima) L0 reps0 E /\
    (let reps := map fst (wo_reps out) in
    Permutation reps0 reps /\ StronglySorted (fun a b => (num a < num b)%nat) reps /\
    length (wo_labels out) = N /\
    (forall v, grid v -> value_at vac v = true -> nth_error (wo_labels out) (num v) = Some (-1)) /\
    weight_result (value_at data) chgV (vol / n3) ismax vorV stpV cells (length reps) (group_of ny nz reps E)
      share (fun v => nth_error (wo_labels out) (num v)) (wo_charges out) (wo_volumes out) /\
    ((forall v n c, In v cells -> ~ ismax v -> mixed (value_at data) vorV stpV share v -> up v n ->
        ((share n c == 1)%Q -> Z.of_nat c <> z) /\ z <> - Z.of_nat (num n) - 1) ->
     nothing_dropped cells (length reps) share ->
     ideal_shares (value_at data) ismax vorV stpV cells (group_of ny nz reps E) share) /\
    (wo_vac_charge out == qsum (map chgV (filter (fun v => value_at vac v) (voxels nx ny nz))))%Q /\
    (wo_vac_volume out == vol / n3 * inject_Z (Z.of_nat (length (filter (fun v => value_at vac v) (voxels nx ny nz)))))%Q).
Proof.
  intros Hf HM o. unfold o, weight_run.
  set (mx := maxima) in *.
  destruct (argwhere_spec nx ny nz Hx Hy Hz mask0) as (ND & _ & IN). fold mx in ND, IN.
  destruct (Hsorted mx) as [PS SS].
  destruct (initialize_correct nx ny nz Hx Hy Hz data nbs Hnbs vac Hvac mask0 ltac:(apply mask_loop_length)
     (fun v G => mask_num v G) mx ND IN
     (same mx) (fun a b Ha Hb => Hsame mx a b Ha Hb) (sorted mx) PS SS Hfloor fuel Hf) as (L0 & bs & mask' & E & E1 & -> & PO & M).
  rewrite E1. cbn [obind]. pose proof M as [ML MO MR MC _ _ _ _ MND MB].
  set (bs' := sort_maxima_frac ny nz bs) in *.
  assert (PB : Permutation bs bs') by apply sort_reps_perm.
  set (reps := map fst bs').
  assert (PR : Permutation (map fst bs) reps) by now apply Permutation_map.
  assert (RG : forall b, In b (map fst bs) -> grid b) by (intros b Hb; apply MB in Hb as [[[G _] _] _]; exact G).
  assert (FN : forall l : list ((Z * Z * Z) * q3), map (fun b => fl (fst b)) l = map num (map fst l)).
  { intros l. rewrite map_map. apply map_ext. intros b. apply flat_nat_num. }
  assert (SB : StronglySorted (fun a b => (num a < num b)%nat) reps).
  { unfold reps. apply (StronglySorted_map fst (fun a b => (num a < num b)%nat) (fun a b => (fl (fst a) < fl (fst b))%nat)).
    - apply sort_reps_sorted. rewrite FN. apply NoDup_map_inj_in; [exact MND|]. intros u w Hu Hw. apply num_grid_inj; auto.
    - intros a b _ _. now rewrite !flat_nat_num. }
  rewrite FN. fold reps.
  assert (LEN : length (map num reps) = length reps) by apply map_length.
  assert (SN : StronglySorted lt (map num reps)).
  { apply (StronglySorted_map num lt (fun a b => (num a < num b)%nat)); [exact SB|auto]. }
  assert (HN : forall v, In v order -> (v < length L0)%nat) by (intros v Hv; rewrite ML; now apply order_in in Hv).
  assert (HA : forall v n a, In (n, a) (vor v) -> (0 < a)%Q).
  { intros v n a I. unfold vor_of in I. apply in_map_iff in I as ([s x] & [= _ <-] & I). now apply (Hfacets s x). }
  assert (HMX : forall v, In v order -> mask v = true -> exists r, nth_error L0 v = Some (Z.of_nat r) /\
     In r order /\ mask r = true /\ nth_error L0 r = Some (Z.of_nat r) /\ In r (map num reps)).
  { intros v Hv Mv. apply order_in in Hv as [Lv Vv]. destruct (unflat_in_grid nx ny nz Hx Hy Hz v Lv) as [G Ev]. rewrite <- Ev in Mv.
    apply (mask_num _ G) in Mv. destruct (MR _ Mv) as (b & [Tb _] & K1 & K2 & K3 & _). rewrite Ev in K1.
    exists (num b). split; [exact K1|]. split; [apply order_num; [apply Tb|apply Tb]|]. split; [apply mask_num; [apply Tb|exact Tb]|].
    split; [exact K2|]. apply in_map. now apply (Permutation_in _ PR). }
  assert (HO : forall v, (v < length L0)%nat -> (mask v = false \/ ~ In v order) -> nth_error L0 v = Some (-1)).
  { intros v Lv H. rewrite ML in Lv. destruct (unflat_in_grid nx ny nz Hx Hy Hz v Lv) as [G Ev]. rewrite <- Ev. apply MO; [exact G|].
    intros T. destruct H as [H|H].
    - rewrite <- Ev in H. apply (mask_num _ G) in T. congruence.
    - apply H, order_in. split; [exact Lv|apply T]. }
  assert (HK : (Z.of_nat (length (map num reps)) < 10 ^ 6)%Z).
  { rewrite LEN. assert (length reps <= length mx)%nat; [|lia]. rewrite <- (Permutation_length PR). apply NoDup_incl_length; [exact MND|].
    intros b Hb. apply IN. split; [now apply RG|]. apply MB in Hb as [[T _] _]. apply (mask_num b); [apply T|exact T]. }
  destruct (weight_correct ref chg mask vor best order (map num reps) L0 order_nodup HN order_sorted uphill_in HA HMX HO HK)
    as [[E2 NP]|(lab & cs & vs & share & E2 & LL & WR & VAC & ID)].
  - left. rewrite E2. split; [reflexivity|]. destruct (existsb (fun v => Qle_bool (value_at charge v) 0) cells) eqn:EB.
    + apply existsb_exists in EB as (v & Hv & L). apply Qle_bool_iff in L. eauto.
    + exfalso. apply NP. intros v Hv. apply order_in in Hv as [Lv Vv]. destruct (unflat_in_grid nx ny nz Hx Hy Hz v Lv) as [G Ev].
      unfold at_flat. change (@rd Q) with (@value_at Q). apply Qnot_le_lt. intros L. apply Bool.diff_true_false. rewrite <- EB. symmetry.
      apply existsb_exists. exists (vox v). split; [now apply cells_in|]. now apply Qle_bool_iff.
  - right. rewrite E2. cbn [obind].
    assert (NZ : ~ (n3 == 0)%Q).
    { intros K. assert (0 < n3)%Q; [|lra]. change 0%Q with (inject_Z 0). rewrite <- Zlt_Qlt. nia. }
    assert (CM : forall v, In v cells -> In (num v) order) by (intros v Hv; apply cells_in in Hv as [G V]; now apply order_num).
    assert (CG : forall v, In v cells -> grid v) by (intros v Hv; now apply cells_in in Hv).
    assert (MT : forall v, In v cells -> (mask (num v) = true <-> ismax v)) by (intros v Hv; apply mask_num; auto).
    assert (BAS : forall v c, In v cells -> ismax v -> group_of ny nz reps E v c -> c = basin (map num reps) L0 (num v)).
    { intros v c Hv T (b & Hb & C). destruct (MR v T) as (b0 & [Tb0 _] & K1 & K2 & K3 & _).
      assert (Ib : In b (map fst bs)) by (apply (Permutation_in _ (Permutation_sym PR)); eapply nth_error_In; eauto).
      destruct (MB b Ib) as [[Tb _] Lb].
      assert (EQ : nth_error L0 (num v) = nth_error L0 (num b)) by (now apply (proj2 (MC v b T Tb))).
      unfold basin, root. symmetry. apply searchsorted_nth; [exact SN|].
      assert (lab_at L0 (num v) = Z.of_nat (num b)) as ->.
      { unfold lab_at. rewrite Lb in EQ. now rewrite (nth_error_nth _ _ _ EQ). }
      rewrite Nat2Z.id. rewrite nth_error_map, Hb. reflexivity. }
    assert (UPN : forall v n, In v cells -> ~ ismax v -> up v n -> In n cells /\ uphill ref vor bestr (num v) (num n)).
    { intros v n Hv NM U. apply uphill_num in U as [G U]; auto. split; [|exact U]. apply cells_in. split; [exact G|].
      apply order_num; [exact G|]. apply (uphill_in (num v)); auto. destruct (mask (num v)) eqn:Mv; [|reflexivity].
      exfalso. apply NM. now apply MT. }
    assert (MF : forall v, In v cells -> ~ ismax v -> mask (num v) <> true) by (intros v Hv NM Mv; apply NM; now apply MT).
    assert (UPB : forall v n, In v cells -> ~ ismax v -> uphill ref vor bestr (num v) n -> exists w, n = num w /\ In w cells /\ up v w).
    { intros v n Hv NM U. assert (On : In n order).
      { apply (uphill_in (num v)); auto. destruct (mask (num v)) eqn:Mv; [|reflexivity]. exfalso. now apply (MF v). }
      pose proof On as On'. apply order_in in On' as [Ln Vn]. destruct (unflat_in_grid nx ny nz Hx Hy Hz n Ln) as [G En].
      exists (vox n). split; [now rewrite En|]. split; [now apply cells_in|]. apply uphill_num; auto. split; [exact G|]. now rewrite En. }
    set (sh := fun v b => share (num v) b).
    assert (QC : forall f : nat -> Q, (qsum (map f order) == qsum (map (fun v => f (num v)) cells))%Q).
    { intros f. rewrite <- (map_map num f). apply qsum_perm, Permutation_map, Permutation_sym, cells_perm. }
    assert (CN : forall v, In v cells -> chg (num v) = value_at charge v).
    { intros v Hv. unfold at_flat. rewrite (unflat_voxel_number nx ny nz v) by auto. reflexivity. }
    eexists _, L0, (map fst bs), E, sh, (w_stale (interior_phase ref chg mask vor best (map num reps) order L0)).
    split; [reflexivity|]. cbn [wo_labels wo_reps wo_charges wo_volumes wo_vac_charge wo_vac_volume]. fold reps.
    split; [exact M|]. split; [exact PR|]. split; [exact SB|]. split; [congruence|]. split.
    { intros v G V. apply VAC; [rewrite ML; now apply voxel_number_lt|]. intros H. apply order_num in H; [congruence|exact G]. }
    destruct WR as [W1 W2 W3 [WL1 WL2] W4 W5 W6 W7 W8 W9]. rewrite LEN in *.
    split; [|split; [|split]].
    + constructor.
      * intros v b Hv. apply W1. auto.
      * intros v b Hv. apply W2. auto.
      * intros v Hv. apply W3. auto.
      * rewrite !map_length. auto.
      * intros b Hb. rewrite (nth_map_div (fun x => x / n3)%Q) by lia. rewrite (W4 b Hb), QC.
        setoid_replace (qsum (map (fun v => chg (num v) * share (num v) b) cells) / n3)%Q with
          ((1 / n3) * qsum (map (fun v => chg (num v) * share (num v) b) cells))%Q by (field; exact NZ).
        rewrite <- qsum_map_scale. apply qsum_map_ext. intros v Hv. rewrite (CN v Hv). unfold sh. field. exact NZ.
      * intros b Hb. rewrite (nth_map_div (fun x => x * (vol / n3))%Q) by lia. rewrite (W5 b Hb), QC.
        rewrite Qmult_comm, <- qsum_map_scale. apply qsum_map_ext. intros v Hv. unfold sh. field. exact NZ.
      * intros v c b Hv T Gc. apply W6; [auto|now apply MT|]. now apply BAS.
      * intros v b Hv NM P. destruct (W7 (num v) b) as (n & U & On & Pn); [auto|now apply MF|exact P|].
        destruct (UPB v n Hv NM U) as (w & -> & Cw & Uw). exists w. auto.
      * intros v b Hv NM A. apply W8; [auto|now apply MF|]. intros n U. destruct (UPB v n Hv NM U) as (w & -> & Cw & Uw). now apply A.
      * intros v Hv. destruct (W9 (num v)) as (b & B1 & B2 & B3 & B4); [auto|]. exists b. auto.
    + intros NC NDr. assert (MIX : forall v, In v cells -> ~ ismax v -> mixed ref vor bestr share (num v) -> mixed (value_at data) vorV stpV sh v).
      { intros v Hv NM MX (c & Hc). apply MX. exists c. intros n U. destruct (UPB v n Hv NM U) as (w & -> & Cw & Uw). now apply Hc. }
      assert (BACK : forall v, In v order -> exists w, v = num w /\ In w cells).
      { intros v Hv. apply (Permutation_in _ (Permutation_sym cells_perm)) in Hv. apply in_map_iff in Hv as (w & <- & Hw). eauto. }
      assert (NMF : forall w, In w cells -> mask (num w) = false -> ~ ismax w) by (intros w Hw Mw T; apply (MT w Hw) in T; congruence).
      destruct ID as [I1 I2 I3].
      { intros v n c Hv Mv MX U S1. destruct (BACK v Hv) as (w & -> & Hw). pose proof (NMF w Hw Mv) as NM.
        destruct (UPB w n Hw NM U) as (u & -> & Cu & Uu). destruct (NC w u c Hw NM (MIX w Hw NM MX) Uu) as [NC1 _]. apply NC1. exact S1. }
      { intros v n Hv Mv MX U. destruct (BACK v Hv) as (w & -> & Hw). pose proof (NMF w Hw Mv) as NM.
        destruct (UPB w n Hw NM U) as (u & -> & Cu & Uu). destruct (NC w u 0%nat Hw NM (MIX w Hw NM MX) Uu) as [_ NC1]. exact NC1. }
      { intros v Hv. destruct (BACK v Hv) as (w & -> & Hw). apply (NDr w Hw). }
      constructor.
      * intros v c b Hv T Gc. apply I1; [auto|now apply MT|]. now apply BAS.
      * intros v b Hv NM (n & a & In_ & L). unfold sh. rewrite I2; [|auto|now apply MF|].
        -- unfold inherited. rewrite (flow_num (fun n => share n b) v) by auto. rewrite outflow_num by auto. reflexivity.
        -- exists (num n), a. destruct (vorV_grid v n a (CG v Hv) In_) as [Gn _]. rewrite !ref_num by auto. split; [|exact L].
           rewrite vor_num by auto. apply in_map_iff. now exists (n, a).
      * intros v n b Hv NM NH B. assert (U : up v n) by (right; auto). destruct (UPN v n Hv NM U) as [Cn [(a & Ia & La)|[NH' B']]].
        -- exfalso. rewrite vor_num in Ia by auto. apply in_map_iff in Ia as ([w x] & Ew & Iw). cbn [fst snd] in Ew. injection Ew as Ew <-.
           destruct (vorV_grid v w x (CG v Hv) Iw) as [Gw _]. apply num_grid_inj in Ew; auto. subst w. specialize (NH n x Iw).
           rewrite !ref_num in La by auto. lra.
        -- unfold sh. apply I3; [auto|now apply MF|exact NH'|exact B'].
    + set (vacs := filter (at_flat ny nz vac) (seq 0 N)).
      assert (PV : Permutation (map num (filter (fun v => value_at vac v) (voxels nx ny nz))) vacs).
      { apply NoDup_Permutation; [|apply NoDup_filter, seq_NoDup|].
        - apply NoDup_map_inj_in; [apply NoDup_filter, voxels_nodup|]. intros u w Hu Hw. apply filter_In in Hu as [Hu _], Hw as [Hw _].
          apply in_voxels in Hu, Hw. now apply num_grid_inj.
        - intros i. unfold vacs. rewrite in_map_iff, filter_In, in_seq. unfold at_flat. change (@rd bool) with (@value_at bool). split.
          + intros (v & <- & Hv). apply filter_In in Hv as [Hv V]. apply in_voxels in Hv. rewrite (unflat_voxel_number nx ny nz v Hv).
            pose proof (voxel_number_lt nx ny nz Hx Hy Hz v Hv). split; [lia|exact V].
          + intros [L V]. destruct (unflat_in_grid nx ny nz Hx Hy Hz i ltac:(lia)) as [G Ei]. exists (vox i). split; [exact Ei|].
            apply filter_In. split; [now apply in_voxels|exact V]. }
      rewrite <- (qsum_perm _ _ (Permutation_map _ PV)), map_map.
      setoid_replace (qsum (map (fun v => chg (num v)) (filter (fun v => value_at vac v) (voxels nx ny nz))) / n3)%Q with
        ((1 / n3) * qsum (map (fun v => chg (num v)) (filter (fun v => value_at vac v) (voxels nx ny nz))))%Q by (field; exact NZ).
      rewrite <- qsum_map_scale. apply qsum_map_ext. intros v Hv. apply filter_In in Hv as [Hv _]. apply in_voxels in Hv.
      unfold at_flat. rewrite (unflat_voxel_number nx ny nz v Hv). change (@rd Q) with (@value_at Q). field. exact NZ.
    + set (vacs := filter (at_flat ny nz vac) (seq 0 N)).
      assert (PV : Permutation (map num (filter (fun v => value_at vac v) (voxels nx ny nz))) vacs).
      { apply NoDup_Permutation; [|apply NoDup_filter, seq_NoDup|].
        - apply NoDup_map_inj_in; [apply NoDup_filter, voxels_nodup|]. intros u w Hu Hw. apply filter_In in Hu as [Hu _], Hw as [Hw _].
          apply in_voxels in Hu, Hw. now apply num_grid_inj.
        - intros i. unfold vacs. rewrite in_map_iff, filter_In, in_seq. unfold at_flat. change (@rd bool) with (@value_at bool). split.
          + intros (v & <- & Hv). apply filter_In in Hv as [Hv V]. apply in_voxels in Hv. rewrite (unflat_voxel_number nx ny nz v Hv).
            pose proof (voxel_number_lt nx ny nz Hx Hy Hz v Hv). split; [lia|exact V].
          + intros [L V]. destruct (unflat_in_grid nx ny nz Hx Hy Hz i ltac:(lia)) as [G Ei]. exists (vox i). split; [exact Ei|].
            apply filter_In. split; [now apply in_voxels|exact V]. }
      apply Permutation_length in PV. rewrite map_length in PV. rewrite <- PV. field. exact NZ.
Qed.
End Run.
