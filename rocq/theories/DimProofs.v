(** Proofs about [DimModel]: the dimensionality of a mask. *)
From Coq Require Import QArith Lqa.
From Verif Require Import Base GridModel GridProofs RootsModel UnionModel ChargeModel NearModel BadelfModel DimModel DimSpec.
Local Open Scope Z_scope.

Lemma touching_sym a b : touching a b -> touching b a.
Proof. destruct a as [[x y] z], b as [[x' y'] z']. cbn. lia. Qed.
Lemma joined_trans ok a b c : joined ok a b -> joined ok b c -> joined ok a c.
Proof. intros J. revert c. induction J as [v V|x y z X T J IH]; intros c K; [exact K|]. eapply joined_step; eauto. Qed.
Lemma joined_ends ok a b : joined ok a b -> ok a /\ ok b.
Proof. induction 1 as [v V|x y z X T J [_ IH]]; auto. Qed.
Lemma joined_sym ok a b : joined ok a b -> joined ok b a.
Proof.
  induction 1 as [v V|x y z X T J IH]; [now constructor|]. eapply joined_trans; [exact IH|].
  apply (joined_step ok y x x); [exact (proj1 (joined_ends _ _ _ J))|now apply touching_sym|now constructor].
Qed.
Lemma joined_mono (ok ok' : voxel -> Prop) a b : (forall v, ok v -> ok' v) -> joined ok a b -> joined ok' a b.
Proof. intros M. induction 1 as [v V|x y z X T J IH]; [constructor; auto|eapply joined_step; eauto]. Qed.
Lemma joined_map (ok ok' : voxel -> Prop) (f : voxel -> voxel) a b :
  (forall v, ok v -> ok' (f v)) -> (forall x y, touching x y -> touching (f x) (f y)) -> joined ok a b -> joined ok' (f a) (f b).
Proof. intros M T. induction 1 as [v V|x y z X Tt J IH]; [constructor; auto|eapply joined_step; eauto]. Qed.

Lemma counted_fun {A} (P : A -> Prop) l n n' : counted P l n -> counted P l n' -> n = n'.
Proof. intros H. revert n'. induction H; intros n' H'; inversion H'; subst; try contradiction; auto. Qed.
Lemma counted_le {A} (P P' : A -> Prop) l n n' : (forall x, P x -> P' x) -> counted P l n -> counted P' l n' -> (n <= n')%nat.
Proof.
  intros M H. revert n'. induction H; intros n' H'; inversion H'; subst.
  - lia.
  - specialize (IHcounted _ H5). lia.
  - exfalso. auto.
  - specialize (IHcounted _ H5). lia.
  - auto.
Qed.
Lemma counted_length {A} (P : A -> Prop) l n : counted P l n -> (n <= length l)%nat.
Proof. induction 1; cbn; lia. Qed.
Lemma counted_filter {A} (P : A -> Prop) (f : A -> bool) l : (forall x, In x l -> (f x = true <-> P x)) -> counted P l (length (filter f l)).
Proof.
  induction l as [|x l IH]; intros H; [constructor|]. cbn. pose proof (H x (or_introl eq_refl)) as Hx.
  assert (IH' : counted P l (length (filter f l))) by (apply IH; intros; apply H; now right).
  destruct (f x); [apply counted_yes; tauto|]. apply counted_no; [|exact IH']. intros C. apply Hx in C. discriminate.
Qed.
Section Dim.
Variables nx ny nz : Z.
Hypotheses (HX : 0 < nx) (HY : 0 < ny) (HZ : 0 < nz).

Lemma image_mod m i j k t : m (i mod nx) (j mod ny) (k mod nz) = true -> crystal nx ny nz m (image nx ny nz (i, j, k) t).
Proof. destruct t as [[a b] c]. cbn. intros H. now rewrite !Z_mod_plus_full. Qed.

Lemma image_touching t a b : touching a b -> touching (image nx ny nz a t) (image nx ny nz b t).
Proof.
  destruct t as [[p q] r], a as [[x y] z], b as [[x' y'] z']. cbn. intros (A & B & C).
  replace (x + p * nx - (x' + p * nx)) with (x - x') by ring. replace (y + q * ny - (y' + q * ny)) with (y - y') by ring.
  replace (z + r * nz - (z' + r * nz)) with (z - z') by ring. auto.
Qed.

Lemma crystal_shift m a b t : joined (crystal nx ny nz m) a b -> joined (crystal nx ny nz m) (image nx ny nz a t) (image nx ny nz b t).
Proof. apply (joined_map _ _ (fun v => image nx ny nz v t)); [|intros x y; apply image_touching]. intros [[i j] k] H. now apply image_mod. Qed.

Lemma boxed_crystal m a b : joined (boxed nx ny nz m) a b -> joined (crystal nx ny nz m) a b.
Proof. apply joined_mono. intros [[i j] k] [_ H]. exact H. Qed.

Lemma image_image v s t : image nx ny nz (image nx ny nz v s) t = image nx ny nz v (let '(a, b, c) := s in let '(a', b', c') := t in (a + a', b + b', c + c')).
Proof. destruct v as [[i j] k], s as [[a b] c], t as [[a' b'] c']. cbn. f_equal; [f_equal|]; ring. Qed.

Definition dir (p : voxel * voxel) : voxel := let '((a, b, c), (a', b', c')) := p in (a' - a, b' - b, c' - c).

Lemma link_extends m v a b : joined (boxed nx ny nz m) (image nx ny nz v a) (image nx ny nz v b) -> extends nx ny nz m v (dir (a, b)).
Proof.
  intros J. apply boxed_crystal in J. apply (crystal_shift _ _ _ (let '(p, q, r) := a in (- p, - q, - r))) in J. rewrite !image_image in J.
  destruct a as [[p q] r], b as [[p' q'] r']. unfold extends, dir. cbn in J.
  replace (p + - p) with 0 in J by ring. replace (q + - q) with 0 in J by ring. replace (r + - r) with 0 in J by ring.
  assert (E : image nx ny nz v (0, 0, 0) = v). { destruct v as [[i j] k]. cbn. f_equal; [f_equal|]; ring. }
  rewrite E in J. replace (p' - p) with (p' + - p) by ring. replace (q' - q) with (q' + - q) by ring. now replace (r' - r) with (r' + - r) by ring.
Qed.

Definition dirs := map dir pairs13.

(** ** The code's count *)
Definition box_v (v : voxel) : Prop := in_box nx ny nz v.

Lemma at3_in {A} (px py pz : Z) (f : arr3 A) v : in_box px py pz v -> at3 px py pz f v = Done (rd3 f v).
Proof.
  destruct v as [[i j] k]. cbn. intros (I & J & K). unfold axis.
  replace ((0 <=? i) && (i <? px)) with true by lia. replace ((0 <=? j) && (j <? py)) with true by lia.
  now replace ((0 <=? k) && (k <? pz)) with true by lia.
Qed.

Lemma keep_spec mask l : (forall v, In v l -> box_v v) -> keep nx ny nz mask l = Done (filter (rd3 mask) l).
Proof.
  induction l as [|v l IH]; intros H; [reflexivity|]. cbn [keep]. rewrite at3_in by (apply H; now left). cbn [obind].
  rewrite IH by (intros; apply H; now right). cbn [obind filter]. now destruct (rd3 mask v).
Qed.

Definition unit01 (t : voxel) : Prop := let '(a, b, c) := t in 0 <= a <= 1 /\ 0 <= b <= 1 /\ 0 <= c <= 1.

Lemma image_box v t : box_v v -> unit01 t -> in_box (2 * nx) (2 * ny) (2 * nz) (image nx ny nz v t).
Proof. destruct v as [[i j] k], t as [[a b] c]. unfold box_v. cbn [in_box unit01 image]. intros (I & J & K) (A & B & C). nia. Qed.

Lemma shift_image v t : shift nx ny nz v t = image nx ny nz v t.
Proof. destruct v as [[i j] k], t as [[a b] c]. cbn. f_equal; [f_equal|]; ring. Qed.

Lemma copy_labels_spec labels v ts : box_v v -> (forall t, In t ts -> unit01 t) ->
  copy_labels nx ny nz labels v ts = Done (map (fun t => rd3 labels (image nx ny nz v t)) ts).
Proof.
  intros V. induction ts as [|t ts IH]; intros H; [reflexivity|]. cbn [copy_labels]. rewrite shift_image, at3_in; [|apply image_box; [exact V|apply H; now left]].
  cbn [obind]. rewrite IH by (intros; apply H; now right). reflexivity.
Qed.

Lemma copies_unit t : In t copies -> unit01 t.
Proof. intros H. repeat (destruct H as [<-|H]; [cbn; lia|]). destruct H. Qed.

Lemma image_set m v t : box_v v -> rd3 m v = true -> unit01 t -> boxed nx ny nz m (image nx ny nz v t).
Proof.
  intros V M T. split; [now apply image_box|]. destruct v as [[i j] k], t as [[a b] c]. cbn in *. rewrite !Z_mod_plus_full, !Z.mod_small by lia. exact M.
Qed.

Lemma filter_map_length {A B} (f : A -> B) (p : B -> bool) l : length (filter p (map f l)) = length (filter (fun x => p (f x)) l).
Proof. induction l as [|x l IH]; [reflexivity|]. cbn. destruct (p (f x)); cbn; auto. Qed.

Lemma count_spec m labels v : box_v v -> rd3 m v = true -> labels_ok (2 * nx) (2 * ny) (2 * nz) (tile nx ny nz m) labels ->
  exists ls, copy_labels nx ny nz labels v copies = Done ls /\ links nx ny nz m v (count_connections ls).
Proof.
  intros V M [_ L]. eexists. split; [apply copy_labels_spec; [exact V|apply copies_unit]|].
  unfold count_connections.
  assert (E : length (filter (fun '(a, b) => nth a (map (fun t => rd3 labels (image nx ny nz v t)) copies) 0 =? nth b (map (fun t => rd3 labels (image nx ny nz v t)) copies) 0) connections)
    = length (filter (fun '(a, b) => rd3 labels (image nx ny nz v a) =? rd3 labels (image nx ny nz v b)) pairs13)).
  { change pairs13 with (map (fun '(a, b) => (nth a copies (0, 0, 0), nth b copies (0, 0, 0))) connections).
    rewrite filter_map_length. f_equal. }
  rewrite E. unfold links. apply counted_filter. intros [a b] I. rewrite Z.eqb_eq.
  assert (U : unit01 a /\ unit01 b). { repeat (destruct I as [I|I]; [injection I as <- <-; cbn; lia|]). destruct I. }
  apply (L (image nx ny nz v a) (image nx ny nz v b)); apply (image_set m v); tauto.
Qed.

Lemma dim_of_count_spec n : (n <= 13)%nat -> match dim_of_count n with Some d => reads n d | None => n = 5%nat end.
Proof.
  intros H. do 14 (destruct n as [|n]; [cbn; unfold reads; lia|]). lia.
Qed.
Lemma reads_fun n d d' : reads n d -> reads n d' -> d = d'.
Proof. unfold reads. lia. Qed.
Lemma reads_le n n' d d' : (n <= n')%nat -> reads n d -> reads n' d' -> (d <= d')%nat.
Proof. unfold reads. lia. Qed.
Lemma links_le13 m v n : links nx ny nz m v n -> (n <= 13)%nat.
Proof. intros H. apply counted_length in H. exact H. Qed.

Lemma dims_spec m labels l : (forall v, In v l -> box_v v /\ rd3 m v = true) -> labels_ok (2 * nx) (2 * ny) (2 * nz) (tile nx ny nz m) labels ->
  exists ds, dims_of nx ny nz labels l = Done ds /\
    (forall d, In d ds -> exists v n, In v l /\ links nx ny nz m v n /\ reads n d) /\
    (forall v n d, In v l -> links nx ny nz m v n -> reads n d -> In d ds).
Proof.
  intros H L. induction l as [|v l IH]; [exists []; repeat split; easy|].
  destruct IH as (ds & D & A & B); [intros; apply H; now right|].
  destruct (H v (or_introl eq_refl)) as [V M]. destruct (count_spec m labels v V M L) as (ls & C & K).
  cbn [dims_of]. rewrite C. cbn [obind]. rewrite D. cbn [obind].
  pose proof (dim_of_count_spec _ (links_le13 _ _ _ K)) as R. eexists. split; [reflexivity|].
  split.
  - intros d I. destruct (dim_of_count (count_connections ls)) as [e|] eqn:E.
    + destruct I as [<-|I]; [exists v, (count_connections ls); split; [now left|auto]|].
      destruct (A d I) as (w & n & W & X). exists w, n. split; [now right|exact X].
    + destruct (A d I) as (w & n & W & X). exists w, n. split; [now right|exact X].
  - intros w n d [<-|W] K' R'.
    + rewrite (counted_fun _ _ _ _ K' K) in R'. destruct (dim_of_count (count_connections ls)) as [e|]; [left; now apply (reads_fun (count_connections ls))|]. rewrite R in R'. unfold reads in R'. lia.
    + specialize (B w n d W K' R'). destruct (dim_of_count (count_connections ls)); [now right|exact B].
Qed.

Lemma fold_max_spec l x : In (fold_left Nat.max l x) (x :: l) /\ forall y, In y (x :: l) -> (y <= fold_left Nat.max l x)%nat.
Proof.
  revert x. induction l as [|a l IH]; intros x; [cbn; split; [now left|intros y [<-|[]]; lia]|]. cbn [fold_left]. destruct (IH (Nat.max x a)) as [I U]. split.
  - destruct I as [I|I]; [|now right; right]. rewrite <- I. destruct (Nat.max_spec x a) as [[_ ->]|[_ ->]]; [right; now left|now left].
  - intros y [<-|[<-|Y]].
    + pose proof (U _ (or_introl eq_refl)). lia.
    + pose proof (U _ (or_introl eq_refl)). lia.
    + apply U. now right.
Qed.

Lemma py_max_spec l : match py_max l with Done d => In d l /\ (forall y, In y l -> (y <= d)%nat) | Raised => l = [] | Running => False end.
Proof. destruct l as [|x l]; [reflexivity|]. cbn [py_max]. apply fold_max_spec. Qed.

Variable lab : arr3 bool -> arr3 Z.
Definition lab_ok := forall m, labels_ok (2 * nx) (2 * ny) (2 * nz) m (lab m).
Definition feature (feats : list vec) (v : voxel) : Prop := exists f, In f feats /\ v = feature_index nx ny nz f.

Lemma mask_dim_spec feats m : lab_ok -> (forall v, feature feats v -> box_v v) ->
  ((forall v, feature feats v -> rd3 m v = false) /\ mask_dim nx ny nz lab feats m = Done 0%nat) \/
  ((exists v, feature feats v /\ rd3 m v = true) /\
   ((exists d v n, mask_dim nx ny nz lab feats m = Done d /\ feature feats v /\ rd3 m v = true /\ links nx ny nz m v n /\ reads n d /\
      forall v' n' d', feature feats v' -> rd3 m v' = true -> links nx ny nz m v' n' -> reads n' d' -> (d' <= d)%nat) \/
    (mask_dim nx ny nz lab feats m = Raised /\ forall v, feature feats v -> rd3 m v = true -> links nx ny nz m v 5))).
Proof.
  intros L F. assert (FE : forall v, feature feats v <-> In v (map (feature_index nx ny nz) feats)).
  { intros v. rewrite in_map_iff. unfold feature. split; intros (f & A & B); exists f; auto. }
  assert (FB : forall v, In v (map (feature_index nx ny nz) feats) -> box_v v) by (intros v V; apply F; now apply FE).
  unfold mask_dim. destruct (existsb (rd3 m) (voxels nx ny nz)) eqn:EX; cbn [negb].
  - rewrite keep_spec by exact FB. cbn [obind].
    destruct (filter (rd3 m) (map (feature_index nx ny nz) feats)) as [|w l] eqn:EF.
    + left. split; [|reflexivity]. intros v V. apply FE in V. destruct (rd3 m v) eqn:E; [|reflexivity].
      assert (I : In v (filter (rd3 m) (map (feature_index nx ny nz) feats))) by (apply filter_In; auto). rewrite EF in I. destruct I.
    + right. assert (IF : forall v, In v (w :: l) <-> feature feats v /\ rd3 m v = true) by (intros v; rewrite <- EF, filter_In, <- FE; reflexivity).
      split; [exists w; apply IF; now left|].
      destruct (dims_spec m (lab (tile nx ny nz m)) (w :: l)) as (ds & D & A & B); [intros v V; apply IF in V; split; [now apply F|tauto]|apply L|].
      rewrite D. cbn [obind]. pose proof (py_max_spec ds) as P. destruct (py_max ds) as [d| |]; [|right|].
      * left. destruct P as [I U]. destruct (A d I) as (v & n & V & K & R). apply IF in V. exists d, v, n. repeat split; try tauto.
        intros v' n' d' V' M' K' R'. apply U. apply (B v' n'); auto. apply IF. auto.
      * split; [reflexivity|]. intros v V M. destruct (count_spec m (lab (tile nx ny nz m)) v (F v V) M (L _)) as (ls & C & K).
        pose proof (dim_of_count_spec _ (links_le13 _ _ _ K)) as R. destruct (dim_of_count (count_connections ls)) as [e|] eqn:E; [|now rewrite R in K].
        assert (I : In e ds) by (apply (B v (count_connections ls)); auto; apply IF; auto). rewrite P in I. destruct I.
      * destruct P.
  - left. split; [|reflexivity]. intros [[i j] k] V. apply F in V. destruct (rd3 m (i, j, k)) eqn:E; [|reflexivity]. exfalso.
    enough (existsb (rd3 m) (voxels nx ny nz) = true) by congruence. apply existsb_exists. exists (i, j, k). split; [apply in_voxels; exact V|exact E].
Qed.
End Dim.
