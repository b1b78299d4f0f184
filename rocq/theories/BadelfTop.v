From Coq Require Import QArith Lqa Lia ZifyBool ZifyNat.
From Verif Require Import Base GridModel RootsModel UnionModel ChargeModel ChargeProofs CoordModel CoordMerge BifProofs NearModel WeightModel RefineModel PlaneModel BadelfModel BadelfSpec BadelfProofs BadelfOut BadelfPass.
From Verif Require WeightRun.
Local Open Scope Z_scope.

Section Top.
Variables nx ny nz : Z.
Variable max_label : nat.
Variable argsort : list Q -> list nat.
Hypothesis SORT : forall l, Permutation (argsort l) (seq 0 (length l)).
Variable labels : arr3 Z.
Hypothesis LOW : forall v, -1 <= rd3 labels v.
Variable vacuum : arr3 bool.
Variable trans : list (voxel * Q).
Variable breaks : list nat.
Hypothesis SH : shells trans breaks.

Definition row_of (v : voxel) : list (Z * Q) := gather nx ny nz max_label argsort labels v trans 0 breaks (search0 max_label).
Local Notation points := (open_voxels nx ny nz labels vacuum).
Definition rows : list (voxel * list (Z * Q)) := map (fun v => (v, row_of v)) points.

Lemma gather_all_eq : gather_all nx ny nz max_label argsort labels vacuum trans breaks = Done rows.
Proof.
  unfold gather_all, rows, row_of. fold (open_voxels nx ny nz labels vacuum). destruct points as [|p ps]; [reflexivity|].
  destruct SH as (_ & _ & B & _). destruct breaks; [congruence|]. reflexivity.
Qed.

Definition tie_order (data : arr3 Q) : list (voxel * list (Z * Q)) :=
  let ties := filter tied rows in map (fun i => nth i ties ((0, 0, 0), [])) (rev (argsort (map (fun '(v, _) => rd3 data v) ties))).

Lemma tie_order_perm data : Permutation (tie_order data) (filter tied rows).
Proof.
  unfold tie_order. set (ties := filter tied rows). transitivity (map (fun i => nth i ties ((0, 0, 0), [])) (seq 0 (length ties))).
  - apply Permutation_map. rewrite <- Permutation_rev. rewrite (SORT (map (fun '(v, _) => rd3 data v) ties)), map_length. reflexivity.
  - now rewrite map_nth_seq.
Qed.

Lemma row_cases v : (exists b, reached nx ny nz max_label labels v trans breaks b /\ good_row nx ny nz max_label labels v (firstn (S b) trans) (row_of v)) \/
  ((forall b, In b breaks -> ~ hit nx ny nz max_label labels v (firstn (S b) trans)) /\ row_of v = []).
Proof. destruct SH as (P & SS & _ & RB). exact (gather_spec nx ny nz max_label argsort SORT labels LOW v trans breaks P SS RB). Qed.

Lemma row_pos_of v : row_pos (row_of v).
Proof.
  destruct (row_cases v) as [(b & _ & _ & _ & _ & G & _)|[_ ->]]; [|intros s f []]. intros s f I. apply (G s f I).
Qed.
Lemma row_sites v s f : In (s, f) (row_of v) -> 0 <= s < Z.of_nat max_label /\ exists d, In d trans /\ rd3 labels (neigh nx ny nz v (fst d)) = s.
Proof.
  destruct (row_cases v) as [(b & _ & _ & _ & _ & G & _)|[_ ->]]; [|intros []]. intros I. destruct (G s f I) as (_ & R & d & D & E).
  split; [exact R|]. exists d. split; [|exact E]. rewrite <- (firstn_skipn (S b) trans). apply in_or_app. now left.
Qed.

Definition all_found : Prop := forall v, In v points -> exists b, In b breaks /\ hit nx ny nz max_label labels v (firstn (S b) trans).

Lemma rows_unit : all_found -> Forall unit_row rows.
Proof.
  intros AF. apply Forall_forall. intros [v r] I. unfold rows in I. apply in_map_iff in I. destruct I as (w & [= -> <-] & W).
  unfold unit_row. cbn [snd]. rewrite (used_pos _ (row_pos_of v)). destruct (AF v W) as (b & B & H).
  destruct (row_cases v) as [(b' & _ & _ & _ & _ & _ & G & _)|[N _]]; [exact G|exfalso; now apply (N b B)].
Qed.

Lemma conserved data ch vo lab' ch' vo' : outside nx ny nz max_label argsort data labels vacuum trans breaks ch vo = Done (lab', ch', vo') ->
  all_found -> length ch' = length ch /\ length vo' = length vo /\
  (qsum ch' == qsum ch + qsum (map (rd3 data) points))%Q /\ (qsum vo' == qsum vo + qsum (map (fun _ => 1) points))%Q.
Proof.
  intros H AF. unfold outside in H. rewrite gather_all_eq in H. cbn [obind] in H.
  destruct (first_pass data rows (Acc labels ch vo ch) []) as [[st ties]| |] eqn:F; cbn [obind] in H; try discriminate.
  pose proof (rows_unit AF) as U. destruct (first_pass_sum data _ _ _ _ _ F U) as (T & L1 & L2 & L3 & S1 & S2). cbn in T. subst ties.
  fold (tie_order data) in H.
  destruct (second_pass data (tie_order data) (snd (last rows ((0, 0, 0), []))) st) as [st2| |] eqn:G; cbn [obind] in H; try discriminate.
  injection H as <- <- <-. pose proof (tie_order_perm data) as TP.
  assert (UT : Forall unit_row (tie_order data)).
  { apply Forall_forall. intros x X. apply (Permutation_in _ TP) in X. apply filter_In in X. rewrite Forall_forall in U. now apply U. }
  assert (UL : tie_order data <> [] -> (row_sum (used (snd (last rows ((0, 0, 0)%Z, [])))) == 1)%Q).
  { intros NE. rewrite Forall_forall in U. apply U. destruct rows as [|r rs] eqn:R.
    - exfalso. apply NE. cbn in TP. now apply Permutation_sym, Permutation_nil in TP.
    - rewrite (app_removelast_last ((0, 0, 0), []) (l := r :: rs)) at 2 by discriminate. apply in_or_app. right. now left. }
  destruct (second_pass_sum data _ _ _ _ G UL UT) as (M1 & M2 & S3 & S4). cbn [a_ch a_vo] in *.
  assert (SP : forall h : voxel -> Q, (qsum (map (fun x => if tied x then 0 else h (fst x)) rows) + qsum (map (fun x => h (fst x)) (tie_order data)) == qsum (map h points))%Q).
  { intros h. rewrite (qsum_perm _ _ (Permutation_map (fun x => h (fst x)) TP)).
    transitivity (qsum (map (fun x : voxel * list (Z * Q) => h (fst x)) rows)); [|unfold rows; rewrite map_map; reflexivity].
    clear. induction rows as [|x t IH]; [reflexivity|]. cbn [filter map]. destruct (tied x); cbn [map]; rewrite !qsum_cons, <- IH; ring. }
  repeat split; try congruence.
  - rewrite S3, S1, <- (SP (rd3 data)). ring.
  - rewrite S4, S2, <- (SP (fun _ => 1%Q)). ring.
Qed.

Lemma points_nodup : NoDup points.
Proof. apply NoDup_filter, WeightRun.voxels_nodup. Qed.
Lemma rows_fst : map fst rows = points.
Proof. unfold rows. rewrite map_map. cbn. apply map_id. Qed.

(** The stage does not fail when the sites met have positive charges and the data are not negative. *)
Lemma succeeds data ch vo num : (0 < num)%nat -> (max_label <= num)%nat -> length ch = num -> length vo = num ->
  (forall v, In v points -> (0 <= rd3 data v)%Q) ->
  (forall v d, In v points -> In d trans -> usable nx ny nz max_label labels v d ->
     (0 < nth (Z.to_nat (rd3 labels (neigh nx ny nz v (fst d)))) ch 0)%Q) ->
  exists lab' ch' vo', outside nx ny nz max_label argsort data labels vacuum trans breaks ch vo = Done (lab', ch', vo') /\
    (forall v, ~ In v points -> rd3 lab' v = rd3 labels v) /\
    (forall v, In v points -> rd3 lab' v = -1 \/ exists d, In d trans /\ usable nx ny nz max_label labels v d /\ rd3 lab' v = rd3 labels (neigh nx ny nz v (fst d))).
Proof.
  intros N ML LC LV DP CP. unfold outside. rewrite gather_all_eq. cbn [obind].
  assert (RI : Forall (row_in num) rows).
  { apply Forall_forall. intros [v r] I. unfold rows in I. apply in_map_iff in I. destruct I as (w & [= -> <-] & W). intros s f S. cbn in S. apply row_sites in S. lia. }
  destruct (first_pass_done data num N rows (Acc labels ch vo ch) [] LC LV LC RI) as (st & -> & L1 & L2 & L3 & S & U & W).
  cbn [obind app]. fold (tie_order data). pose proof (tie_order_perm data) as TP. cbn [a_labels a_ch a_vo] in *.
  assert (IR : forall x, In x rows -> In (fst x) points /\ snd x = row_of (fst x)).
  { intros x X. unfold rows in X. apply in_map_iff in X. destruct X as (w & <- & Wp). auto. }
  assert (IT : forall x, In x (tie_order data) -> In x rows /\ tied x = true).
  { intros x X. apply (Permutation_in _ TP) in X. now apply filter_In in X. }
  set (present := fun s => exists v f, In v points /\ In (s, f) (row_of v)).
  assert (CHG : forall s, (s < num)%nat -> (nth s ch 0 <= nth s (a_ch st) 0)%Q).
  { intros s Hs. destruct (S s Hs) as [A _]. rewrite A.
    assert (0 <= qsum (map (fun x => if tied x then 0 else rd3 data (fst x) * share (Z.of_nat s) (used (snd x))) rows))%Q; [|lra].
    apply qsum_nonneg. intros y Y. apply in_map_iff in Y. destruct Y as (x & <- & X). destruct (tied x); [lra|]. destruct (IR x X) as [X1 X2].
    apply Qmult_le_0_compat; [now apply DP|]. rewrite X2. rewrite (used_pos _ (row_pos_of (fst x))). apply share_nonneg, row_pos_of. }
  destruct (second_pass_done data num present N (tie_order data) (snd (last rows ((0, 0, 0), []))) st L1 L2 L3) as (st2 & -> & U2 & W2).
  - intros x X. apply IT in X. destruct X as [X _]. apply IR in X. now apply DP.
  - intros s (v & f & V & I). pose proof (row_sites v s f I) as (R & d & D & E). split; [lia|]. eapply Qlt_le_trans; [|apply CHG; lia].
    rewrite <- E. apply CP; auto. unfold usable. rewrite E. exact R.
  - intros row [->|I].
    + assert (LR : rows = [] \/ In (last rows ((0, 0, 0), [])) rows).
      { destruct rows as [|r rs]; [now left|right]. rewrite (app_removelast_last ((0, 0, 0), []) (l := r :: rs)) at 2 by discriminate. apply in_or_app. right. now left. }
      destruct LR as [LR|LR]; [rewrite LR; split; [intros s f []|intros s f []]|]. apply IR in LR. destruct LR as [A B]. rewrite B. split; [apply row_pos_of|].
      intros s f I. exists (fst (last rows ((0, 0, 0), []))), f. auto.
    + apply in_map_iff in I. destruct I as (x & <- & X). apply IT in X. destruct X as [X _]. apply IR in X. destruct X as [A B]. rewrite B.
      split; [apply row_pos_of|]. intros s f I. exists (fst x), f. auto.
  - cbn [obind]. eexists _, _, _. split; [reflexivity|].
    assert (NDR : NoDup (map fst rows)) by (rewrite rows_fst; apply points_nodup).
    assert (NDT : NoDup (map fst (tie_order data))).
    { eapply Permutation_NoDup; [apply Permutation_sym, Permutation_map, TP|]. revert NDR. clear. induction rows as [|x t IH]; intros ND; [constructor|].
      inversion ND as [|? ? NI ND']; subst. cbn [filter]. destruct (tied x); [|now apply IH]. cbn [map]. constructor; [|now apply IH].
      intros I. apply NI. apply in_map_iff in I. destruct I as (y & E & Y). apply filter_In in Y. apply in_map_iff. exists y. split; [exact E|apply Y]. }
    assert (TF : forall v, In v (map fst (tie_order data)) -> In v points).
    { intros v I. apply in_map_iff in I. destruct I as (x & <- & X). apply IT in X. destruct X as [X _]. now apply IR. }
    split.
    + intros v NV. rewrite U2 by (intros I; apply NV; now apply TF). apply U. intros I. apply NV. apply in_map_iff in I. destruct I as (x & <- & X).
      apply filter_In in X. destruct X as [X _]. now apply IR.
    + intros v V. assert (IV : In (v, row_of v) rows) by (unfold rows; apply in_map_iff; now exists v).
      assert (FIN : forall f s, In (s, f) (row_of v) -> exists d, In d trans /\ usable nx ny nz max_label labels v d /\ s = rd3 labels (neigh nx ny nz v (fst d))).
      { intros f s I. apply row_sites in I. destruct I as (R & d & D & E). exists d. unfold usable. rewrite E. auto. }
      destruct (tied (v, row_of v)) eqn:T.
      * assert (IO : In (v, row_of v) (tie_order data)) by (apply (Permutation_in _ (Permutation_sym TP)); apply filter_In; auto).
        destruct (W2 NDT _ IO) as [E|(f & E)]; cbn [fst snd] in E; [now left|right; now apply (FIN f)].
      * assert (NT : ~ In v (map fst (tie_order data))).
        { intros I. apply in_map_iff in I. destruct I as ([w r] & E & X). cbn in E. subst w. apply IT in X. destruct X as [X X2]. apply IR in X. cbn in X. destruct X as [_ ->]. congruence. }
        rewrite U2 by exact NT. pose proof (W NDR _ IV T) as E. cbn [fst] in E. rewrite E. unfold first_label. cbn [snd].
        destruct (best_of (used (row_of v)) 0 (-1) false) as [s t] eqn:B. cbn [fst]. apply best_of_in in B. destruct B as [->|(f & B)]; [now left|].
        right. apply used_in in B. now apply (FIN f).
Qed.

(** Without ties: the labels and the shares of every site. *)
Lemma clear_row (v : voxel) b s : reached nx ny nz max_label labels v trans breaks b -> few_sites nx ny nz max_label labels v (firstn (S b) trans) ->
  0 <= s < Z.of_nat max_label ->
  (forall t, 0 <= t < Z.of_nat max_label -> t <> s ->
    (fraction nx ny nz max_label labels v (firstn (S b) trans) t + tol < fraction nx ny nz max_label labels v (firstn (S b) trans) s)%Q) ->
  best_of (row_of v) 0 (-1) false = (s, false) /\ forall t, 0 <= t < Z.of_nat max_label -> (share t (row_of v) == fraction nx ny nz max_label labels v (firstn (S b) trans) t)%Q.
Proof.
  intros RE FS RS BEST. destruct (row_cases v) as [(b' & RE' & GR)|[N _]]; [|exfalso; destruct RE as (B & H & _); now apply (N b B)].
  assert (b' = b).
  { destruct RE as (B & H & M), RE' as (B' & H' & M'). destruct (Nat.lt_trichotomy b b') as [L|[L|L]]; [|auto|]; exfalso; [now apply (M' b B L)|now apply (M b' B' L)]. }
  subst b'. destruct GR as (NE & ND & LE & PO & SU & FR). specialize (FR FS). split.
  - set (l := firstn (S b) trans) in *. set (F := fraction nx ny nz max_label labels v l) in *.
    assert (VAL : forall t g, In (t, g) (row_of v) -> (g == F t)%Q).
    { intros t g I. destruct (PO t g I) as (_ & R & _). destruct (FR t R) as [_ E]. now apply E. }
    assert (SB : (1 # 10 <= F s)%Q).
    { assert (LEQ : forall t g, In (t, g) (row_of v) -> (g <= F s)%Q).
      { intros t g I. rewrite (VAL t g I). destruct (Z.eq_dec t s) as [->|NT]; [lra|]. destruct (PO t g I) as (_ & R & _). specialize (BEST t R NT).
        assert (0 < tol)%Q by reflexivity. lra. }
      assert (FP : (0 <= F s)%Q).
      { destruct (row_of v) as [|[t g] u] eqn:E; [congruence|]. pose proof (LEQ t g (or_introl eq_refl)). destruct (PO t g (or_introl eq_refl)). lra. }
      assert (UB : forall r : list (Z * Q), (forall t g, In (t, g) r -> (g <= F s)%Q) -> (qsum (map snd r) <= inject_Z (Z.of_nat (length r)) * F s)%Q).
      { induction r as [|[t g] r IH]; intros H; [change (0 <= 0 * F s)%Q; lra|]. cbn [map snd length]. rewrite qsum_cons, Nat2Z.inj_succ, <- Z.add_1_r, inject_Z_plus.
        pose proof (H t g (or_introl eq_refl)). assert (X : (qsum (map snd r) <= inject_Z (Z.of_nat (length r)) * F s)%Q) by (apply IH; intros; eapply H; right; eassumption).
        change (inject_Z 1) with 1%Q. lra. }
      specialize (UB _ LEQ). rewrite SU in UB.
      assert (UB2 : (inject_Z (Z.of_nat (length (row_of v))) * F s <= 10 * F s)%Q).
      { apply Qmult_le_compat_r; [|exact FP]. change 10%Q with (inject_Z 10). rewrite <- Zle_Qle. lia. }
      lra. }
    assert (IS : exists g, In (s, g) (row_of v)).
    { destruct (in_dec Z.eq_dec s (map fst (row_of v))) as [I|I]; [apply in_map_iff in I; destruct I as ([x g] & E & X); cbn in E; subst x; now exists g|].
      exfalso. destruct (FR s RS) as [E _]. assert (Z0 : (share s (row_of v) == 0)%Q).
      { unfold share. etransitivity; [apply (qsum_map_ext _ (fun _ => 0%Q))|apply qsum_map_zero]. intros [t g] X. destruct (Z.eqb_spec t s) as [->|]; [|reflexivity].
        exfalso. apply I. change s with (fst (s, g)). now apply in_map. }
      fold F in E. unfold F, fraction in SB. rewrite <- E, Z0 in SB. lra. }
    destruct IS as (g & IG). apply (best_of_other (row_of v) 0 (-1) false s g).
    + intros t h I NT. rewrite (VAL t h I), (VAL s g IG). apply BEST; [|exact NT]. apply (PO t h I).
    + intros h I. rewrite (VAL s h I), (VAL s g IG). reflexivity.
    + exact ND.
    + left. split; [exact IG|]. rewrite (VAL s g IG). unfold tol. lra.
  - intros t R. destruct (FR t R) as [E _]. rewrite E. reflexivity.
Qed.

Lemma clear_stage data ch vo num (bf : voxel -> nat) (sf : voxel -> Z) : (0 < num)%nat -> (max_label <= num)%nat -> length ch = num -> length vo = num ->
  (forall v, In v points -> reached nx ny nz max_label labels v trans breaks (bf v) /\ few_sites nx ny nz max_label labels v (firstn (S (bf v)) trans) /\
     0 <= sf v < Z.of_nat max_label /\
     forall t, 0 <= t < Z.of_nat max_label -> t <> sf v ->
       (fraction nx ny nz max_label labels v (firstn (S (bf v)) trans) t + tol < fraction nx ny nz max_label labels v (firstn (S (bf v)) trans) (sf v))%Q) ->
  exists lab' ch' vo', outside nx ny nz max_label argsort data labels vacuum trans breaks ch vo = Done (lab', ch', vo') /\
    length ch' = num /\ length vo' = num /\
    (forall v, In v points -> rd3 lab' v = sf v) /\ (forall v, ~ In v points -> rd3 lab' v = rd3 labels v) /\
    forall t, (t < num)%nat ->
      (nth t ch' 0 == nth t ch 0 + qsum (map (fun v => if Nat.ltb t max_label then rd3 data v * fraction nx ny nz max_label labels v (firstn (S (bf v)) trans) (Z.of_nat t) else 0) points))%Q /\
      (nth t vo' 0 == nth t vo 0 + qsum (map (fun v => if Nat.ltb t max_label then fraction nx ny nz max_label labels v (firstn (S (bf v)) trans) (Z.of_nat t) else 0) points))%Q.
Proof.
  intros N ML LC LV CL. unfold outside. rewrite gather_all_eq. cbn [obind].
  assert (RI : Forall (row_in num) rows).
  { apply Forall_forall. intros [v r] I. unfold rows in I. apply in_map_iff in I. destruct I as (w & [= -> <-] & W). intros s f S. cbn in S. apply row_sites in S. lia. }
  assert (NT : forall v, In v points -> tied (v, row_of v) = false /\ first_label (v, row_of v) = sf v /\
     forall t, 0 <= t < Z.of_nat max_label -> (share t (row_of v) == fraction nx ny nz max_label labels v (firstn (S (bf v)) trans) t)%Q).
  { intros v V. destruct (CL v V) as (C1 & C2 & C3 & C4). destruct (clear_row v (bf v) (sf v) C1 C2 C3 C4) as [B S].
    unfold tied, first_label. cbn [snd]. rewrite (used_pos _ (row_pos_of v)), B. auto. }
  assert (FT : filter tied rows = []).
  { unfold rows. assert (X : forall l, (forall v, In v l -> In v points) -> filter tied (map (fun v => (v, row_of v)) l) = []).
    { induction l as [|v l IH]; intros H; [reflexivity|]. cbn [map filter]. destruct (NT v (H v (or_introl eq_refl))) as [-> _]. apply IH. intros; apply H; now right. }
    apply X. auto. }
  destruct (first_pass_done data num N rows (Acc labels ch vo ch) [] LC LV LC RI) as (st & -> & L1 & L2 & L3 & S & U & W).
  cbn [obind app]. rewrite FT. cbn [map]. 
  assert (EA : argsort [] = []) by (pose proof (SORT []) as P; cbn in P; apply Permutation_sym, Permutation_nil in P; exact P).
  rewrite EA. cbn [rev map second_pass obind]. eexists _, _, _. split; [reflexivity|]. split; [exact L1|]. split; [exact L2|]. cbn [a_labels a_ch a_vo] in *.
  assert (NDR : NoDup (map fst rows)) by (rewrite rows_fst; apply points_nodup). split; [|split].
  - intros v V. destruct (NT v V) as (T & FL & _). rewrite <- FL. change v with (fst (v, row_of v)) at 1. apply W; [exact NDR| |exact T].
      unfold rows. apply in_map_iff. now exists v.
  - intros v V. apply U. intros I. apply V. apply in_map_iff in I. destruct I as (x & <- & X). apply filter_In in X. destruct X as [X _].
      rewrite <- rows_fst. now apply in_map.
  - intros t Ht. destruct (S t Ht) as [A B]. rewrite A, B.
    assert (SV : forall v, In v points -> (share (Z.of_nat t) (used (row_of v)) == if Nat.ltb t max_label then fraction nx ny nz max_label labels v (firstn (Datatypes.S (bf v)) trans) (Z.of_nat t) else 0)%Q).
    { intros v V. rewrite (used_pos _ (row_pos_of v)). destruct (Nat.ltb_spec t max_label) as [LT|GE].
      - destruct (NT v V) as (_ & _ & SHR). apply SHR. lia.
      - unfold share. etransitivity; [apply (qsum_map_ext _ (fun _ => 0%Q))|apply qsum_map_zero]. intros [s g] X. destruct (Z.eqb_spec s (Z.of_nat t)) as [->|]; [|reflexivity].
        exfalso. apply row_sites in X. lia. }
    unfold rows. rewrite !map_map. cbn [fst snd]. split; (apply Qplus_comp; [reflexivity|]); apply qsum_map_ext; intros v V; destruct (NT v V) as [-> _]; rewrite (SV v V).
    + destruct (Nat.ltb t max_label); ring.
    + reflexivity.
Qed.
End Top.
