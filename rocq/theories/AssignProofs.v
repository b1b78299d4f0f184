(** Shells of neighbours and electride totals. *)
From Coq Require Import QArith Qabs Lqa Lia ZifyBool ZifyNat.
From Verif Require Import Base GridModel GridProofs NeighModel RootsModel UnionModel ChargeModel ChargeProofs CoordModel CoordMerge BifProofs NearModel WeightModel RefineModel PlaneModel PlaneSpec PlaneInt PlaneVol PlaneProofs PlaneWrap GobjModel BadelfModel BadelfSpec BadelfProofs BadelfOut BadelfPass BadelfTop BadelfProps AssignModel.
Local Open Scope Z_scope.

Lemma breaks_in : forall ds i b, In b (breaks_from i ds) <->
  exists k x y, b = (i + k)%nat /\ nth_error ds k = Some x /\ nth_error ds (S k) = Some y /\ ~ (x == y)%Q.
Proof.
  induction ds as [|a t IH]; intros i b; [split; [intros []|intros ([|k] & x & y & _ & X & _); discriminate]|].
  destruct t as [|c t].
  - split; [intros []|]. intros ([|k] & x & y & _ & X & Y & _); cbn in *; try discriminate; destruct k; discriminate.
  - change (breaks_from i (a :: c :: t)) with (if Qeq_bool a c then breaks_from (S i) (c :: t) else i :: breaks_from (S i) (c :: t)).
    assert (R : In b (breaks_from (S i) (c :: t)) <-> exists k x y, b = (i + S k)%nat /\ nth_error (a :: c :: t) (S k) = Some x /\ nth_error (a :: c :: t) (S (S k)) = Some y /\ ~ (x == y)%Q).
    { rewrite IH. split; intros (k & x & y & E & X); exists k, x, y; (split; [lia|exact X]). }
    destruct (Qeq_bool a c) eqn:E.
    + apply Qeq_bool_eq in E. rewrite R. split; [intros (k & H); now exists (S k)|]. intros ([|k] & x & y & B & X & Y & N); [|now exists k, x, y].
      cbn in X, Y. injection X as <-. injection Y as <-. contradiction.
    + apply Qeq_bool_neq in E. split.
      * intros [<-|H]; [exists 0%nat, a, c; repeat split; [lia|exact E]|]. apply R in H. destruct H as (k & H). now exists (S k).
      * intros ([|k] & x & y & B & X & Y & N); [left; lia|]. right. apply R. now exists k, x, y.
Qed.

Lemma breaks_sorted : forall ds i, StronglySorted lt (breaks_from i ds).
Proof.
  induction ds as [|a t IH]; intros i; [constructor|]. destruct t as [|c t]; [constructor|].
  change (breaks_from i (a :: c :: t)) with (if Qeq_bool a c then breaks_from (S i) (c :: t) else i :: breaks_from (S i) (c :: t)).
  destruct (Qeq_bool a c); [apply IH|]. constructor; [apply IH|]. apply Forall_forall. intros b B. apply breaks_in in B. destruct B as (k & x & y & -> & _). lia.
Qed.

Lemma combine_map_r {A B} (f : A -> B) : forall l, combine l (map f l) = map (fun a => (a, f a)) l.
Proof. induction l as [|a t IH]; cbn; congruence. Qed.

Lemma sorted_filter {A} (R : A -> A -> Prop) f : forall l, StronglySorted R l -> StronglySorted R (filter f l).
Proof.
  induction l as [|a t IH]; intros S; [constructor|]. inversion S as [|? ? ST F]; subst. cbn. destruct (f a); [|now apply IH]. constructor; [now apply IH|].
  rewrite Forall_forall in F. apply Forall_forall. intros x X. apply filter_In in X. now apply F.
Qed.

Lemma sorted_unmap {A B} (f : A -> B) (R : B -> B -> Prop) : forall l, StronglySorted R (map f l) -> StronglySorted (fun a b => R (f a) (f b)) l.
Proof.
  induction l as [|a t IH]; intros S; [constructor|]. cbn in S. inversion S as [|? ? ST F]; subst. constructor; [now apply IH|].
  rewrite Forall_forall in F. apply Forall_forall. intros x X. apply F. now apply in_map.
Qed.

Lemma firstn_nth {A} (l : list A) n x : In x (firstn n l) <-> exists k, (k < n)%nat /\ nth_error l k = Some x.
Proof.
  revert n. induction l as [|a t IH]; intros [|n]; cbn [firstn].
  - split; [intros []|intros (k & K & _); lia].
  - split; [intros []|intros ([|k] & _ & K); discriminate].
  - split; [intros []|intros (k & K & _); lia].
  - split.
    + intros [->|H]; [exists 0%nat; split; [lia|reflexivity]|]. apply IH in H. destruct H as (k & K & E). exists (S k). split; [lia|exact E].
    + intros ([|k] & K & E); cbn in E; [left; congruence|]. right. apply IH. exists k. split; [lia|exact E].
Qed.

Lemma fold_qmax_ge : forall l x, (x <= fold_left qmax l x)%Q.
Proof.
  induction l as [|a t IH]; intros x; cbn; [lra|]. eapply Qle_trans; [|apply IH]. unfold qmax. destruct (Qltb x a) eqn:E; [apply Qltb_lt in E|]; lra.
Qed.

Section Shells.
Variables nx ny nz : Z.
Variables m lattice : mat.
Variable root : Q -> Q.
Variable argsort : list Q -> list nat.
Hypothesis SORT : sorts argsort.
Notation sph := (sphere nx ny nz m lattice root argsort).
Notation brk := (transform_breaks nx ny nz m lattice root argsort).
Notation dist := (offset_dist nx ny nz m root).
Notation lo := (min_radius nx ny nz m root).
Notation hi := (max_radius lattice root).

Lemma sphere_eq : exists offs, NoDup offs /\ StronglySorted Qle (map dist offs) /\
  (forall o, In o offs <-> In o (candidates nx ny nz m root hi) /\ (dist o <= hi)%Q) /\
  sph = filter (fun d => Qle_bool lo (snd d)) (map (fun o => (o, dist o)) offs).
Proof.
  pose proof (radius_spec nx ny nz m root argsort SORT hi) as R. unfold sphere.
  destruct (get_transforms_in_radius nx ny nz m root argsort hi) as [offs ds]. destruct R as (N & -> & S & I). exists offs.
  split; [exact N|]. split; [exact S|]. split; [exact I|]. now rewrite combine_map_r.
Qed.

Lemma sphere_in o d : In (o, d) sph <-> In o (candidates nx ny nz m root hi) /\ d = dist o /\ (lo <= d <= hi)%Q.
Proof.
  destruct sphere_eq as (offs & _ & _ & I & ->). rewrite filter_In, in_map_iff. cbn [snd]. rewrite Qle_bool_iff. split.
  - intros [(o' & [= -> <-] & O) L]. apply I in O. tauto.
  - intros (C & -> & L & H). split; [|exact L]. exists o. split; [reflexivity|]. now apply I.
Qed.

Lemma sphere_nodup : NoDup sph.
Proof.
  destruct sphere_eq as (offs & N & _ & _ & ->). apply NoDup_filter. apply FinFun.Injective_map_NoDup; [|exact N]. intros a b E. now injection E.
Qed.

Lemma sphere_sorted : StronglySorted (fun a b => (snd a <= snd b)%Q) sph.
Proof.
  destruct sphere_eq as (offs & _ & S & _ & ->). apply sorted_filter. apply (sorted_map (fun o => (o, dist o)) (fun a b => (dist a <= dist b)%Q)); [auto|].
  now apply sorted_unmap.
Qed.

Lemma breaks_spec b : In b brk <-> exists e e', nth_error sph b = Some e /\ nth_error sph (S b) = Some e' /\ (snd e < snd e')%Q.
Proof.
  unfold transform_breaks. rewrite breaks_in. split.
  - intros (k & x & y & -> & X & Y & N). cbn [plus]. rewrite nth_error_map in X, Y.
    destruct (nth_error sph k) as [e|] eqn:E; [|discriminate]. destruct (nth_error sph (S k)) as [e'|] eqn:E'; [|discriminate].
    cbn in X, Y. injection X as <-. injection Y as <-. exists e, e'. split; [reflexivity|]. split; [reflexivity|].
    pose proof (sorted_nth _ sph k (S k) e e' sphere_sorted ltac:(lia) E E') as L. cbv beta in L. destruct (Qlt_le_dec (snd e) (snd e')) as [H|H]; [exact H|]. exfalso. apply N. lra.
  - intros (e & e' & E & E' & L). exists b, (snd e), (snd e'). split; [reflexivity|]. rewrite !nth_error_map, E, E'. repeat split; try reflexivity. lra.
Qed.

Lemma breaks_prefix b e x : In b brk -> nth_error sph b = Some e -> In x (firstn (S b) sph) <-> In x sph /\ (snd x <= snd e)%Q.
Proof.
  intros B E. rewrite firstn_nth. apply breaks_spec in B. destruct B as (e0 & e' & E0 & E' & L). rewrite E in E0. injection E0 as <-. split.
  - intros (k & K & X). split; [now apply nth_error_In in X|]. destruct (Nat.eq_dec k b) as [->|N]; [rewrite E in X; injection X as <-; lra|].
    exact (sorted_nth _ sph k b x e sphere_sorted ltac:(lia) X E).
  - intros [X L2]. apply In_nth_error in X. destruct X as (k & X). exists k. split; [|exact X].
    destruct (Nat.le_gt_cases (S b) k) as [H|H]; [|exact H]. exfalso. destruct (Nat.eq_dec k (S b)) as [->|N].
    + rewrite E' in X. injection X as <-. lra.
    + pose proof (sorted_nth _ sph (S b) k e' x sphere_sorted ltac:(lia) E' X) as L3. cbv beta in L3. lra.
Qed.

(** A position before a larger distance lies in a shell that ends at a break. *)
Lemma break_after : forall n k x y, nth_error sph k = Some x -> nth_error sph (k + n) = Some y -> (snd x < snd y)%Q ->
  exists b e, In b brk /\ nth_error sph b = Some e /\ (snd e == snd x)%Q.
Proof.
  induction n as [|n IH]; intros k x y X Y L.
  - replace (k + 0)%nat with k in Y by lia. rewrite X in Y. injection Y as <-. lra.
  - destruct (nth_error sph (S k)) as [z|] eqn:Ez.
    + pose proof (sorted_nth _ sph k (S k) x z sphere_sorted ltac:(lia) X Ez) as L1. cbv beta in L1.
      destruct (Qlt_le_dec (snd x) (snd z)) as [H|H].
      * exists k, x. split; [apply breaks_spec; now exists x, z|]. split; [exact X|reflexivity].
      * replace (k + S n)%nat with (S k + n)%nat in Y by lia. destruct (IH (S k) z y Ez Y ltac:(lra)) as (b & e & B & E & Q). exists b, e. split; [exact B|]. split; [exact E|]. lra.
    + apply nth_error_None in Ez. assert (k + S n < length sph)%nat by (apply nth_error_Some; congruence). lia.
Qed.

Lemma examined max_label labels v : (exists b, In b brk /\ hit nx ny nz max_label labels v (firstn (S b) sph)) <->
  exists o o', In (o, dist o) sph /\ In (o', dist o') sph /\ (dist o < dist o')%Q /\ usable nx ny nz max_label labels v (o, dist o).
Proof.
  split.
  - intros (b & B & d & D & U). pose proof B as B0. apply breaks_spec in B. destruct B as (e & e' & E & E' & L).
    apply (breaks_prefix b e d B0 E) in D. destruct D as [D LD]. destruct d as [o d], e' as [o' d']. pose proof D as D0. apply sphere_in in D. destruct D as (_ & -> & _).
    apply nth_error_In in E'. pose proof E' as E0. apply sphere_in in E'. destruct E' as (_ & -> & _). exists o, o'. cbn [snd] in *. repeat split; try assumption; try lra. apply U. apply U.
  - intros (o & o' & I & I' & L & U). apply In_nth_error in I, I'. destruct I as (k & K), I' as (k' & K').
    destruct (Nat.le_gt_cases k' k) as [H|H].
    + exfalso. destruct (Nat.eq_dec k' k) as [->|N]; [rewrite K in K'; injection K' as E1; rewrite E1 in L; lra|].
      pose proof (sorted_nth _ sph k' k _ _ sphere_sorted ltac:(lia) K' K) as L2. cbn in L2. lra.
    + replace k' with (k + (k' - k))%nat in K' by lia. destruct (break_after (k' - k) k _ _ K K' L) as (b & e & B & E & Q). exists b. split; [exact B|].
      exists (o, dist o). split; [|exact U]. apply (breaks_prefix b e _ B E). split; [now apply nth_error_In in K|]. cbn [snd] in *. lra.
Qed.

Hypothesis ROOT : forall q, (0 <= q -> 0 <= root q)%Q.
Lemma norm2_nonneg v : (0 <= norm2 v)%Q.
Proof. destruct v as [[x y] z]. cbn. assert (N : forall q : Q, (0 <= q * q)%Q) by (intros; nra). pose proof (N x). pose proof (N y). pose proof (N z). lra. Qed.
Lemma voxel_dist_pos : (0 < voxel_dist nx ny nz m root)%Q.
Proof.
  unfold voxel_dist, max_point_dist. destruct (map _ _) as [|x l] eqn:E; [reflexivity|].
  assert (0 <= x)%Q.
  { unfold vox_vertices in E. destruct m as [[a b] c]. cbn [map] in E. injection E as <- _. apply ROOT, norm2_nonneg. }
  pose proof (fold_qmax_ge l x). assert (0 < 1 / inject_Z tera)%Q by reflexivity. lra.
Qed.
Lemma shells_ok : brk <> [] -> shells sph brk.
Proof.
  intros N. split; [|split; [apply breaks_sorted|split; [exact N|]]].
  - intros [o d] E. apply sphere_in in E. destruct E as (_ & _ & L & _). cbn [snd]. pose proof voxel_dist_pos. unfold min_radius in L. lra.
  - intros b B. apply breaks_spec in B. destruct B as (e & _ & E & _). apply nth_error_Some. congruence.
Qed.
End Shells.

(** ** Sites above [max_label] receive nothing outside the partitions *)
Definition low_row (ml : nat) (row : list (Z * Q)) : Prop := forall s f, In (s, f) row -> 0 <= s < Z.of_nat ml.
Lemma np_add_above ml l s x l' t : 0 <= s < Z.of_nat ml -> (ml <= t)%nat -> np_add l s x = Done l' -> nth t l' 0%Q = nth t l 0%Q.
Proof.
  unfold np_add, np_get, np_set, np_idx. intros R T. destruct ((0 <=? s) && (s <? Z.of_nat (length l))) eqn:K.
  - cbn [oget]. rewrite (nth_error_nth_lt l (Z.to_nat s) 0%Q) by lia. cbn. intros [= <-]. rewrite nth_upd. destruct (Nat.eqb_spec (Z.to_nat s) t); [lia|reflexivity].
  - replace ((- Z.of_nat (length l) <=? s) && (s <? 0)) with false by lia. discriminate.
Qed.
Lemma give_above ml t : (ml <= t)%nat -> forall row c ch vo ch' vo', low_row ml row -> give row c ch vo = Done (ch', vo') ->
  nth t ch' 0%Q = nth t ch 0%Q /\ nth t vo' 0%Q = nth t vo 0%Q.
Proof.
  intros T. induction row as [|[s f] u IH]; intros c ch vo ch' vo' R H; cbn [give] in H; [injection H as <- <-; auto|].
  destruct (np_add ch s (c * f)%Q) as [ch1| |] eqn:A; cbn in H; try discriminate. destruct (np_add vo s f) as [vo1| |] eqn:B; cbn in H; try discriminate.
  pose proof (R s f (or_introl eq_refl)) as RS. apply (np_add_above ml _ _ _ _ t RS T) in A, B.
  apply IH in H; [|intros s' f' I; apply (R s' f'); now right]. destruct H as [-> ->]. auto.
Qed.
Lemma low_used ml row : low_row ml row -> low_row ml (used row).
Proof. intros R s f I. apply (R s f). now apply used_in. Qed.
Lemma first_above ml t data : (ml <= t)%nat -> forall l st ties st' ties', Forall (fun x => low_row ml (snd x)) l -> first_pass data l st ties = Done (st', ties') ->
  nth t (a_ch st') 0%Q = nth t (a_ch st) 0%Q /\ nth t (a_vo st') 0%Q = nth t (a_vo st) 0%Q.
Proof.
  intros T. induction l as [|[v row] u IH]; intros st ties st' ties' F H; cbn [first_pass] in H; [injection H as <- <-; auto|].
  inversion F as [|? ? R F']; subst. cbn [snd] in R. destruct (best_of (used row) 0 (-1) false) as [site tie]. destruct tie; [exact (IH _ _ _ _ F' H)|].
  destruct (np_add (a_approx st) site (rd3 data v)) as [ap| |]; cbn in H; try discriminate.
  destruct (give (used row) (rd3 data v) (a_ch st) (a_vo st)) as [[ch vo]| |] eqn:G; cbn in H; try discriminate.
  apply IH in H; [|exact F']. cbn in H. destruct H as [-> ->]. exact (give_above ml t T _ _ _ _ _ _ (low_used ml row R) G).
Qed.
Lemma second_above ml t data : (ml <= t)%nat -> forall l cur st st', low_row ml cur -> Forall (fun x => low_row ml (snd x)) l -> second_pass data l cur st = Done st' ->
  nth t (a_ch st') 0%Q = nth t (a_ch st) 0%Q /\ nth t (a_vo st') 0%Q = nth t (a_vo st) 0%Q.
Proof.
  intros T. induction l as [|[v row] u IH]; intros cur st st' C F H; cbn [second_pass] in H; [injection H as <-; auto|].
  inversion F as [|? ? R F']; subst. cbn [snd] in R.
  destruct (give (used cur) (rd3 data v) (a_ch st) (a_vo st)) as [[ch vo]| |] eqn:G; cbn in H; try discriminate.
  destruct (improve (used row) (rd3 data v) ch (a_approx st) (-1) (-1)) as [site| |]; cbn in H; try discriminate.
  destruct (np_add (a_approx st) site (rd3 data v)) as [ap| |]; cbn in H; try discriminate.
  apply IH in H; [|exact R|exact F']. cbn in H. destruct H as [-> ->]. exact (give_above ml t T _ _ _ _ _ _ (low_used ml cur C) G).
Qed.
Lemma outside_above nx ny nz ml argsort data labels vacuum trans breaks ch vo lab' ch' vo' t : (forall l, Permutation (argsort l) (seq 0 (length l))) ->
  (forall v, -1 <= rd3 labels v) -> shells trans breaks -> (ml <= t)%nat ->
  outside nx ny nz ml argsort data labels vacuum trans breaks ch vo = Done (lab', ch', vo') -> nth t ch' 0%Q = nth t ch 0%Q /\ nth t vo' 0%Q = nth t vo 0%Q.
Proof.
  intros SO LOW SH T H. unfold outside in H. rewrite (gather_all_eq nx ny nz ml argsort labels vacuum trans breaks SH) in H. cbn [obind] in H.
  set (rows := BadelfTop.rows _ _ _ _ _ _ _ _ _) in H.
  assert (LR : Forall (fun x => low_row ml (snd x)) rows).
  { apply Forall_forall. intros [v r] I. unfold rows, BadelfTop.rows in I. apply in_map_iff in I. destruct I as (w & [= -> <-] & _). cbn [snd].
    intros s f I. exact (proj1 (row_sites nx ny nz ml argsort SO labels LOW trans breaks SH v s f I)). }
  destruct (first_pass data rows (Acc labels ch vo ch) []) as [[st ties]| |] eqn:F; cbn [obind] in H; try discriminate.
  pose proof (first_above ml t data T _ _ _ _ _ LR F) as A.
  assert (FT : forall l st ties st' ties', first_pass data l st ties = Done (st', ties') -> incl ties' (ties ++ l)).
  { clear. induction l as [|[v row] u IH]; intros st ties st' ties' H; cbn [first_pass] in H; [injection H as <- <-; rewrite app_nil_r; apply incl_refl|].
    destruct (best_of (used row) 0 (-1) false) as [site tie]. destruct tie.
    - apply IH in H. rewrite <- app_assoc in H. exact H.
    - destruct (np_add (a_approx st) site (rd3 data v)) as [ap| |]; cbn in H; try discriminate.
      destruct (give (used row) (rd3 data v) (a_ch st) (a_vo st)) as [[ch vo]| |]; cbn in H; try discriminate. apply IH in H.
      intros x X. apply H in X. apply in_app_iff in X. apply in_app_iff. destruct X; [now left|right; now right]. }
  apply FT in F. cbn [app] in F. set (order := map _ _) in H.
  destruct (second_pass data order (snd (last rows ((0, 0, 0), []))) st) as [st2| |] eqn:G; cbn [obind] in H; try discriminate.
  injection H as _ <- <-. assert (LN : forall l n, Forall (fun x : voxel * list (Z * Q) => low_row ml (snd x)) l -> low_row ml (snd (nth n l ((0, 0, 0), [])))).
  { intros l n FL. destruct (Nat.lt_ge_cases n (length l)) as [L|L]; [|rewrite nth_overflow by exact L; intros s f []]. rewrite Forall_forall in FL. apply (FL (nth n l ((0, 0, 0), []))). now apply nth_In. }
  apply (second_above ml t data T) in G.
  - cbn in A. destruct G as [-> ->]. exact A.
  - destruct rows as [|r rs] eqn:ER; [intros s f []|]. rewrite Forall_forall in LR. apply (LR (last (r :: rs) ((0, 0, 0), []))).
    destruct (exists_last (l := r :: rs)) as (a & b & ->); [discriminate|]. rewrite last_last. apply in_or_app. right. now left.
  - apply Forall_forall. intros x X. unfold order in X. apply in_map_iff in X. destruct X as (i & <- & _). apply LN.
    rewrite Forall_forall in LR. apply Forall_forall. intros y Y. now apply LR, F.
Qed.
