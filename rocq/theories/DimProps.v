(** Properties of the electride dimensionality. *)
From Coq Require Import QArith Qabs Lqa.
From Verif Require Import Base GridModel GridProofs RootsModel UnionModel ChargeModel NearModel NearProofs BadelfModel DimModel DimSpec DimProofs DimSearch DimLabel.
Local Open Scope Z_scope.

(** ** C45 *)
(** A labelling as promised by [scipy.ndimage.label] exists. *)
Theorem C45_labels px py pz : exists lab, forall m, labels_ok px py pz m (lab m).
Proof. exists (label_box px py pz). apply label_box_ok. Qed.
Print Assumptions C45_labels.

(** The dimensionality is the largest reading over the features in the mask, from the number of pairs of copies
    joined inside the 2x2x2 supercell; features with five such pairs are left out. *)
Theorem C45_dimension nx ny nz lab feats m : 0 < nx -> 0 < ny -> 0 < nz -> lab_ok nx ny nz lab -> (forall v, feature nx ny nz feats v -> in_box nx ny nz v) ->
  ((forall v, feature nx ny nz feats v -> rd3 m v = false) /\ mask_dim nx ny nz lab feats m = Done 0%nat) \/
  ((exists v, feature nx ny nz feats v /\ rd3 m v = true) /\
   ((exists d v n, mask_dim nx ny nz lab feats m = Done d /\ feature nx ny nz feats v /\ rd3 m v = true /\ links nx ny nz m v n /\ reads n d /\
      forall v' n' d', feature nx ny nz feats v' -> rd3 m v' = true -> links nx ny nz m v' n' -> reads n' d' -> (d' <= d)%nat) \/
    (mask_dim nx ny nz lab feats m = Raised /\ forall v, feature nx ny nz feats v -> rd3 m v = true -> links nx ny nz m v 5))).
Proof. intros X Y Z. now apply mask_dim_spec. Qed.
Print Assumptions C45_dimension.

(** A reported dimensionality is real: some feature in the mask is joined in the crystal to its own images in
    that many independent directions. *)
Theorem C45_sound nx ny nz lab feats m d : 0 < nx -> 0 < ny -> 0 < nz -> lab_ok nx ny nz lab -> (forall v, feature nx ny nz feats v -> in_box nx ny nz v) ->
  mask_dim nx ny nz lab feats m = Done d ->
  d = 0%nat \/ exists v, feature nx ny nz feats v /\ rd3 m v = true /\ spans (extends nx ny nz m v) d.
Proof.
  intros X Y Z L F D. destruct (mask_dim_spec nx ny nz X Y Z lab feats m L F) as [[_ E]|[_ [(e & v & n & E & V & M & K & R & _)|[E _]]]]; rewrite E in D; try discriminate; injection D as <-.
  - now left.
  - right. exists v. split; [exact V|]. split; [exact M|]. apply (counted_spans _ _ n) with (2 := K); [|exact R]. intros [a b]. now apply link_extends.
Qed.
Print Assumptions C45_sound.

(** Raising the cutoff (shrinking the mask) never raises the dimensionality, as long as no feature has five links. *)
Theorem C45_monotone nx ny nz lab feats m m' : 0 < nx -> 0 < ny -> 0 < nz -> lab_ok nx ny nz lab -> (forall v, feature nx ny nz feats v -> in_box nx ny nz v) ->
  (forall v, in_box nx ny nz v -> rd3 m v = true -> rd3 m' v = true) ->
  (forall v, feature nx ny nz feats v -> ~ links nx ny nz m v 5 /\ ~ links nx ny nz m' v 5) ->
  exists d d', mask_dim nx ny nz lab feats m = Done d /\ mask_dim nx ny nz lab feats m' = Done d' /\ (d <= d')%nat.
Proof. intros X Y Z L F S N. apply mask_dim_mono; auto; intros v V _; now apply N. Qed.
Print Assumptions C45_monotone.

(** The list of dimensionalities: the first entry is the dimensionality at zero; the others decrease, each occurs at
    some cutoff and is listed with the cutoff (to within 2^-16 and the rounding to four digits) above which it
    is not exceeded; a dimensionality that lasts for 2^-15 below one is listed. *)
Definition search_right (f : Q -> nat) (r : list (nat * Q)) : Prop :=
  StronglySorted gt (f 0%Q :: map fst r) /\
  (forall d q, In (d, q) r -> (exists x, 0 <= x <= 1 /\ f x = d)%Q /\ forall c, threshold f d c -> (Qabs (q - c) <= (1 # 65536) + (1 # 20000))%Q) /\
  (forall d c, (d < f 0%Q)%nat -> threshold f d c -> (c + (1 # 32768) < 1)%Q -> (forall x, 0 <= x <= c + (1 # 32768) -> (d <= f x)%nat)%Q -> exists q, In (d, q) r).

Theorem C45_search dim f : (forall x, 0 <= x <= 1 -> dim x = Done (f x))%Q -> exists r, electride_dims dim = Done ((f 0%Q, 0%Q) :: r) /\ search_right f r.
Proof.
  intros T. unfold electride_dims. rewrite T by lra. cbn [obind]. destruct (search_spec dim f T (rev (seq 0 (f 0%Q)))) as (r & E & A & B & C).
  rewrite E. cbn [obind]. exists r. split; [reflexivity|]. split; [|split].
  - assert (S : StronglySorted gt (f 0%Q :: rev (seq 0 (f 0%Q)))).
    { generalize (f 0%Q). clear. induction n as [|n IH]; [repeat constructor|]. replace (S n) with (n + 1)%nat at 2 by lia. rewrite seq_app, rev_app_distr. cbn [seq rev app plus].
      constructor; [exact IH|]. inversion IH as [|? ? _ H]; subst. constructor; [lia|]. rewrite Forall_forall in H |- *. intros x X. specialize (H x X). lia. }
    inversion S as [|? ? S1 S2]; subst. constructor; [now apply C|]. rewrite Forall_forall in S2 |- *. intros y Y. apply in_map_iff in Y as ([d q] & <- & Y). apply S2. now destruct (A d q Y).
  - intros d q I. destruct (A d q I) as (_ & A2 & A3). split; [exact A2|]. exact A3.
  - intros d c D Tc L H. apply (B d c); auto. rewrite <- in_rev. apply in_seq. lia.
Qed.
Print Assumptions C45_search.

(** For a density on a grid a threshold exists for every dimension, so the list is right. *)
Theorem C45_cutoffs nx ny nz lab feats emask elf : 0 < nx -> 0 < ny -> 0 < nz -> lab_ok nx ny nz lab -> (forall v, feature nx ny nz feats v -> in_box nx ny nz v) ->
  (forall c v, feature nx ny nz feats v -> ~ links nx ny nz (above emask elf c) v 5) ->
  exists f r, (forall c, 0 <= c <= 1 -> elf_dim nx ny nz lab feats emask elf c = Done (f c))%Q /\
    (forall d, exists c, threshold f d c) /\ electride_dims (elf_dim nx ny nz lab feats emask elf) = Done ((f 0%Q, 0%Q) :: r) /\ search_right f r.
Proof.
  intros X Y Z L F N. assert (NF : forall c, (0 <= c <= 1)%Q -> no_five nx ny nz feats (above emask elf c)) by (intros c _ v V _; now apply N).
  set (f := dim_at nx ny nz lab feats emask elf).
  assert (T : forall c, (0 <= c <= 1)%Q -> elf_dim nx ny nz lab feats emask elf c = Done (f c)) by (intros c C; now apply dim_at_total).
  destruct (C45_search _ f T) as (r & E & S). exists f, r. split; [exact T|]. split; [|split; [exact E|exact S]]. intros d. now apply threshold_exists.
Qed.
Print Assumptions C45_cutoffs.

(** ** Deciding the links of small examples *)
Definition offs27 : list voxel := flat_map (fun i => flat_map (fun j => map (fun k => (i, j, k)) [-1; 0; 1]) [-1; 0; 1]) [-1; 0; 1].
Definition sep (nx ny nz : Z) (m : arr3 bool) (cls : voxel -> Z) : bool :=
  forallb (fun a => negb (setb nx ny nz m a) ||
    forallb (fun d => let '(i, j, k) := a in let '(x, y, z) := d in let b := (i + x, j + y, k + z) in negb (setb nx ny nz m b) || (cls a =? cls b)) offs27) (voxels nx ny nz).

Lemma sep_sound nx ny nz m cls a b : sep nx ny nz m cls = true -> joined (set_in nx ny nz m) a b -> cls a = cls b.
Proof.
  intros S. unfold sep in S. rewrite forallb_forall in S. induction 1 as [v V|x y z X T J IH]; [reflexivity|]. rewrite <- IH.
  assert (Y : set_in nx ny nz m y) by exact (proj1 (joined_ends _ _ _ J)).
  assert (IX : In x (voxels nx ny nz)). { destruct X as [X _], x as [[i j] k]. apply in_voxels. exact X. }
  specialize (S x IX). apply orb_true_iff in S as [S|S]; [apply setb_spec in X; rewrite X in S; discriminate|]. rewrite forallb_forall in S.
  destruct x as [[i j] k], y as [[i' j'] k']. cbn [touching] in T. specialize (S (i' - i, j' - j, k' - k)).
  assert (IO : In (i' - i, j' - j, k' - k) offs27).
  { assert (E : forall p, Z.abs p <= 1 -> In p [-1; 0; 1]). { intros p P. assert (C : p = -1 \/ p = 0 \/ p = 1) by lia. cbn. intuition lia. }
    unfold offs27. apply in_flat_map. exists (i' - i). split; [apply E; lia|]. apply in_flat_map. exists (j' - j). split; [apply E; lia|]. apply in_map, E. lia. }
  specialize (S IO). cbv beta iota zeta in S. replace (i + (i' - i)) with i' in S by lia. replace (j + (j' - j)) with j' in S by lia. replace (k + (k' - k)) with k' in S by lia.
  apply orb_true_iff in S as [S|S]; [apply setb_spec in Y; rewrite Y in S; discriminate|]. lia.
Qed.

Fixpoint walk (nx ny nz : Z) (m : arr3 bool) (a : voxel) (l : list voxel) : bool :=
  setb nx ny nz m a && match l with [] => true | b :: t => touchb a b && walk nx ny nz m b t end.
Lemma walk_sound nx ny nz m l : forall a, walk nx ny nz m a l = true -> joined (set_in nx ny nz m) a (last l a).
Proof.
  induction l as [|b l IH]; intros a H; cbn [walk] in H; apply andb_true_iff in H as [A H].
  - constructor. now apply setb_spec.
  - apply andb_true_iff in H as [T W]. apply (joined_step _ a b); [now apply setb_spec|now apply touchb_spec|].
    specialize (IH b W). destruct l as [|c l]; [exact IH|]. change (last (b :: c :: l) a) with (last (c :: l) a).
    replace (last (c :: l) a) with (last (c :: l) b); [exact IH|]. clear. revert c. induction l as [|d l IH]; intros c; [reflexivity|]. apply (IH d).
Qed.

Ltac by_walk l := apply (walk_sound _ _ _ _ l); vm_compute; reflexivity.
Ltac by_sep H := intros J; apply (sep_sound _ _ _ _ _ _ _ H) in J; vm_compute in J; discriminate J.

(** A wire along x: one link, one dimension. *)
Definition wire : arr3 bool := fun i j k => (j =? 0) && (k =? 0).
Lemma wire_sep : sep 2 4 4 (tile 1 2 2 wire) (fun '(_, j, k) => j + 10 * k) = true.
Proof. vm_compute. reflexivity. Qed.
Lemma wire_links : links 1 2 2 wire (0, 0, 0) 1.
Proof.
  unfold links, pairs13. apply counted_yes; [by_walk [(1, 0, 0)]|]. repeat (apply counted_no; [by_sep wire_sep|]). constructor.
Qed.

Lemma one_feature nx ny nz f v : feature_index nx ny nz f = v -> forall w, feature nx ny nz [f] w -> w = v.
Proof. intros <- w (g & [<-|[]] & ->). reflexivity. Qed.

Lemma one_dim_done nx ny nz lab f v m n d : 0 < nx -> 0 < ny -> 0 < nz -> lab_ok nx ny nz lab -> feature_index nx ny nz f = v -> in_box nx ny nz v -> rd3 m v = true ->
  links nx ny nz m v n -> reads n d -> mask_dim nx ny nz lab [f] m = Done d.
Proof.
  intros X Y Z L F B M K R. pose proof (one_feature _ _ _ _ _ F) as O. assert (FV : feature nx ny nz [f] v) by (exists f; split; [now left|now symmetry]).
  destruct (mask_dim_spec nx ny nz X Y Z lab [f] m L) as [[E _]|[_ [(e & w & p & E & W & _ & K' & R' & _)|[_ A]]]].
  - intros w W. now rewrite (O w W).
  - rewrite E in M by exact FV. discriminate.
  - rewrite (O w W) in K'. rewrite (counted_fun _ _ _ _ K' K) in R'. now rewrite (reads_fun n d e R R').
  - exfalso. specialize (A v FV M). pose proof (counted_fun _ _ _ _ A K) as E5. unfold reads in R. lia.
Qed.

Example C45_ex lab : lab_ok 1 2 2 lab -> mask_dim 1 2 2 lab [(0, 0, 0)%Q] wire = Done 1%nat.
Proof.
  intros L. apply (one_dim_done 1 2 2 lab _ (0, 0, 0) wire 1 1); try lia; [exact L|vm_compute; reflexivity|cbn; lia|reflexivity|exact wire_links|unfold reads; lia].
Qed.

Example C45_ex_search : electride_dims (fun x => Done (if Qle_bool x (1 # 4) then 2%nat else if Qle_bool x (3 # 5) then 1%nat else 0%nat)) =
  Done [(2%nat, 0%Q); (1%nat, inject_Z 2500 / inject_Z 10000)%Q; (0%nat, inject_Z 6000 / inject_Z 10000)%Q].
Proof. vm_compute. reflexivity. Qed.

(** ** C80: five links raise, although the feature extends in three dimensions. *)
Definition layer : arr3 bool := fun i j k => (k =? 0) || ((i =? 0) && (j =? 0) && (k =? 2)) || ((i =? 2) && (j =? 2) && (k =? 1)).
Lemma layer_sep : sep 6 6 6 (tile 3 3 3 layer) (fun '(i, j, k) => if k =? 5 then if (i =? 0) && (j =? 0) then 1 else if (i =? 0) && (j =? 3) then 2 else if (i =? 3) && (j =? 0) then 3 else 0 else 0) = true.
Proof. vm_compute. reflexivity. Qed.
Lemma layer_x : joined (boxed 3 3 3 layer) (image 3 3 3 (0, 0, 2) (0, 0, 0)) (image 3 3 3 (0, 0, 2) (1, 0, 0)). Proof. by_walk [(1, 0, 3); (2, 0, 3); (3, 0, 2)]. Qed.
Lemma layer_y : joined (boxed 3 3 3 layer) (image 3 3 3 (0, 0, 2) (0, 0, 0)) (image 3 3 3 (0, 0, 2) (0, 1, 0)). Proof. by_walk [(0, 1, 3); (0, 2, 3); (0, 3, 2)]. Qed.
Lemma layer_xyz : joined (boxed 3 3 3 layer) (image 3 3 3 (0, 0, 2) (0, 0, 0)) (image 3 3 3 (0, 0, 2) (1, 1, 1)). Proof. by_walk [(1, 1, 3); (2, 2, 4); (3, 3, 5)]. Qed.
Lemma layer_links : links 3 3 3 layer (0, 0, 2) 5.
Proof.
  unfold links, pairs13. apply counted_yes; [exact layer_x|]. apply counted_yes; [exact layer_y|]. apply counted_no; [by_sep layer_sep|].
  apply counted_yes; [by_walk [(1, 1, 3); (2, 2, 3); (3, 3, 2)]|]. do 4 (apply counted_no; [by_sep layer_sep|]).
  apply counted_yes; [by_walk [(2, 1, 3); (1, 2, 3); (0, 3, 2)]|]. apply counted_yes; [exact layer_xyz|].
  repeat (apply counted_no; [by_sep layer_sep|]). constructor.
Qed.

Theorem C80_five_refuted : exists nx ny nz f v m, 0 < nx /\ 0 < ny /\ 0 < nz /\ feature_index nx ny nz f = v /\ in_box nx ny nz v /\ rd3 m v = true /\
  spans (extends nx ny nz m v) 3 /\ forall lab, lab_ok nx ny nz lab -> mask_dim nx ny nz lab [f] m = Raised.
Proof.
  exists 3, 3, 3, (0, 0, 2 # 3)%Q, (0, 0, 2), layer. do 3 (split; [lia|]). split; [vm_compute; reflexivity|]. split; [cbn; lia|]. split; [reflexivity|]. split.
  - exists (1, 0, 0), (0, 1, 0), (1, 1, 1). split; [exact (link_extends 3 3 3 layer _ _ _ layer_x)|]. split; [exact (link_extends 3 3 3 layer _ _ _ layer_y)|].
    split; [exact (link_extends 3 3 3 layer _ _ _ layer_xyz)|]. vm_compute. discriminate.
  - intros lab L. assert (O : forall w, feature 3 3 3 [(0, 0, 2 # 3)%Q] w -> w = (0, 0, 2)) by (apply one_feature; vm_compute; reflexivity).
    assert (FV : feature 3 3 3 [(0, 0, 2 # 3)%Q] (0, 0, 2)) by (eexists; split; [now left|vm_compute; reflexivity]).
    destruct (mask_dim_spec 3 3 3 ltac:(lia) ltac:(lia) ltac:(lia) lab [(0, 0, 2 # 3)%Q] layer L) as [[E _]|[_ [(e & w & p & E & W & _ & K' & R' & _)|[E _]]]].
    + intros w W. rewrite (O w W). cbn. lia.
    + specialize (E _ FV). discriminate E.
    + rewrite (O w W) in K'. rewrite (counted_fun _ _ _ _ K' layer_links) in R'. unfold reads in R'. lia.
    + exact E.
Qed.
Print Assumptions C80_five_refuted.

(** ** C81: a wire whose period is two cells by one is reported as a point. *)
Definition stair : arr3 bool := fun i j k => (k =? 0) && (j mod 3 =? i mod 3).
Lemma stair_sep : sep 6 12 4 (tile 3 6 2 stair) (fun '(i, j, k) => 10 * ((j - i) / 3) + k) = true.
Proof. vm_compute. reflexivity. Qed.
Lemma stair_links : links 3 6 2 stair (0, 0, 0) 0.
Proof. unfold links, pairs13. repeat (apply counted_no; [by_sep stair_sep|]). constructor. Qed.

Theorem C81_stair_refuted : exists nx ny nz f v m, 0 < nx /\ 0 < ny /\ 0 < nz /\ feature_index nx ny nz f = v /\ in_box nx ny nz v /\ rd3 m v = true /\
  spans (extends nx ny nz m v) 1 /\ forall lab, lab_ok nx ny nz lab -> mask_dim nx ny nz lab [f] m = Done 0%nat.
Proof.
  exists 3, 6, 2, (0, 0, 0)%Q, (0, 0, 0), stair. do 3 (split; [lia|]). split; [vm_compute; reflexivity|]. split; [cbn; lia|]. split; [reflexivity|]. split.
  - exists (2, 1, 0). split; [|discriminate]. unfold extends. cbn [image].
    assert (C : forall i, crystal 3 6 2 stair (i, i, 0)).
    { intros i. unfold crystal, stair. replace ((0 mod 2 =? 0)) with true by reflexivity. cbn [andb].
      apply Z.eqb_eq. rewrite Z.mod_mod by lia. symmetry. replace 6 with (3 * 2) by reflexivity. rewrite Z.rem_mul_r by lia. rewrite (Z.mul_comm 3), Z_mod_plus_full. symmetry. apply Z.mod_mod. lia. }
    assert (W : forall n, joined (crystal 3 6 2 stair) (0, 0, 0) (Z.of_nat n, Z.of_nat n, 0)).
    { induction n as [|n IH]; [constructor; apply C|]. apply joined_trans with (1 := IH). apply (joined_step _ _ (Z.of_nat (S n), Z.of_nat (S n), 0)); [apply C|cbn [touching]; lia|constructor; apply C]. }
    exact (W 6%nat).
  - intros lab L. apply (one_dim_done 3 6 2 lab _ (0, 0, 0) stair 0 0); try lia; [exact L|vm_compute; reflexivity|cbn; lia|reflexivity|exact stair_links|unfold reads; lia].
Qed.
Print Assumptions C81_stair_refuted.

(** ** C82: the cutoff listed with the highest dimensionality is always zero, not the highest cutoff at which it exists. *)
Lemma counted_all {A} (P : A -> Prop) l : (forall x, In x l -> P x) -> counted P l (length l).
Proof. induction l as [|x l IH]; intros H; [constructor|]. apply counted_yes; [apply H; now left|]. apply IH. intros; apply H; now right. Qed.

Lemma full_joined a b : In (a, b) pairs13 -> joined (boxed 1 1 1 (fun _ _ _ => true)) (image 1 1 1 (0, 0, 0) a) (image 1 1 1 (0, 0, 0) b).
Proof.
  intros I. assert (E : forall v, image 1 1 1 (0, 0, 0) v = v) by (intros [[x y] z]; cbn; f_equal; [f_equal|]; lia). rewrite !E.
  apply (walk_sound _ _ _ _ [b]). repeat (destruct I as [I|I]; [injection I as <- <-; vm_compute; reflexivity|]). destruct I.
Qed.

Theorem C82_highest_refuted : exists nx ny nz f emask elf, 0 < nx /\ 0 < ny /\ 0 < nz /\ forall lab, lab_ok nx ny nz lab ->
  exists d q l c, electride_dims (elf_dim nx ny nz lab [f] emask elf) = Done ((d, q) :: l) /\ (q < c <= 1)%Q /\ elf_dim nx ny nz lab [f] emask elf c = Done d.
Proof.
  exists 1, 1, 1, (0, 0, 0)%Q, (fun _ _ _ => true), (fun _ _ _ => 1%Q). do 3 (split; [lia|]). intros lab L.
  assert (T : forall x, (0 <= x <= 1)%Q -> elf_dim 1 1 1 lab [(0, 0, 0)%Q] (fun _ _ _ => true) (fun _ _ _ => 1%Q) x = Done 3%nat).
  { intros x X. unfold elf_dim. apply (one_dim_done 1 1 1 lab _ (0, 0, 0) _ 13 3); try lia; [exact L|vm_compute; reflexivity|cbn; lia| | |unfold reads; lia].
    - apply Qle_bool_iff. lra.
    - assert (E : forall v, boxed 1 1 1 (fun _ _ _ => true) v -> boxed 1 1 1 (above (fun _ _ _ => true) (fun _ _ _ => 1%Q) x) v).
      { intros [[i j] k] [B _]. split; [exact B|]. apply Qle_bool_iff. lra. }
      apply (counted_all _ pairs13). intros [a b] I. apply (joined_mono _ _ _ _ E). now apply full_joined. }
  destruct (C45_search _ (fun _ => 3%nat) T) as (r & E & _). exists 3%nat, 0%Q, r, 1%Q. split; [exact E|]. split; [lra|]. apply T. lra.
Qed.
Print Assumptions C82_highest_refuted.

(** ** C83: without electrides the dimensionalities are not [None]. *)
Theorem C83_none_refuted : exists nx ny nz, 0 < nx /\ 0 < ny /\ 0 < nz /\ forall lab elf,
  exists out st, all_electride_dims 0 (elf_dim nx ny nz lab [] (fun _ _ _ => false) elf) Unset = Done (out, st) /\ out = Some [(0%nat, 0%Q)].
Proof. exists 1, 1, 1. do 3 (split; [lia|]). intros lab elf. eexists. eexists. split; reflexivity. Qed.
Print Assumptions C83_none_refuted.

(** ** C84: a feature in the last half voxel of the cell raises. *)
Theorem C84_edge_refuted : exists nx ny nz (x : Q) m, 0 < nx /\ 0 < ny /\ 0 < nz /\ (0 <= x < 1)%Q /\ (forall v, rd3 m v = true) /\ forall lab, mask_dim nx ny nz lab [(x, 0, 0)%Q] m = Raised.
Proof. exists 2, 1, 1, (19 # 20)%Q, (fun _ _ _ => true). do 3 (split; [lia|]). split; [split; [discriminate|reflexivity]|]. split; [now intros [[i j] k]|]. intros lab. vm_compute. reflexivity. Qed.
Print Assumptions C84_edge_refuted.
