(** A labelling with the properties promised by [scipy.ndimage.label] exists for every mask, and the
    dimensionality of a density has a threshold for every dimension. *)
From Coq Require Import QArith Lqa Relations.
From Verif Require Import Base GridModel GridProofs RootsModel UnionModel ChargeModel NearModel BadelfModel DimModel DimSpec DimProofs DimSearch.
Local Open Scope Z_scope.

Section Label.
Variables px py pz : Z.
Variable m : arr3 bool.

Definition setb (v : voxel) : bool := let '(i, j, k) := v in (0 <=? i) && (i <? px) && (0 <=? j) && (j <? py) && (0 <=? k) && (k <? pz) && m i j k.
Lemma setb_spec v : setb v = true <-> set_in px py pz m v.
Proof. destruct v as [[i j] k]. unfold setb, set_in. cbn. rewrite !andb_true_iff, !Z.leb_le, !Z.ltb_lt. tauto. Qed.

Definition number (v : voxel) : Z := let '(i, j, k) := v in 1 + ((i * py + j) * pz + k).
Definition first_label : arr3 Z := fun i j k => if setb (i, j, k) then number (i, j, k) else 0.
Definition merge (l : arr3 Z) (e : voxel * voxel) : arr3 Z := let '(a, b) := e in fun i j k => if l i j k =? rd3 l a then rd3 l b else l i j k.
Definition touchb (a b : voxel) : bool := let '(x, y, z) := a in let '(x', y', z') := b in (Z.abs (x - x') <=? 1) && (Z.abs (y - y') <=? 1) && (Z.abs (z - z') <=? 1).
Definition edges : list (voxel * voxel) :=
  filter (fun '(a, b) => setb a && setb b && touchb a b) (list_prod (voxels px py pz) (voxels px py pz)).
Definition label_box : arr3 Z := fold_left merge edges first_label.

Lemma touchb_spec a b : touchb a b = true <-> touching a b.
Proof. destruct a as [[x y] z], b as [[x' y'] z']. unfold touchb, touching. rewrite !andb_true_iff, !Z.leb_le. tauto. Qed.

Lemma edges_in a b : In (a, b) edges <-> set_in px py pz m a /\ set_in px py pz m b /\ touching a b.
Proof.
  unfold edges. rewrite filter_In, !andb_true_iff, !setb_spec, touchb_spec, in_prod_iff. split; [tauto|].
  intros (A & B & T). split; [|tauto]. split; apply in_voxels; [destruct A as [A _], a as [[x y] z]; exact A|destruct B as [B _], b as [[x y] z]; exact B].
Qed.

Lemma rd_merge l a b v : rd3 (merge l (a, b)) v = if rd3 l v =? rd3 l a then rd3 l b else rd3 l v.
Proof. now destruct v as [[i j] k]. Qed.

Definition link (l : arr3 Z) (es : list (voxel * voxel)) (x y : voxel) : Prop := rd3 l x = rd3 l y \/ In (x, y) es.

Lemma merge_all es : forall l x y, rd3 (fold_left merge es l) x = rd3 (fold_left merge es l) y <-> clos_refl_sym_trans _ (link l es) x y.
Proof.
  induction es as [|[a b] es IH]; intros l x y.
  - cbn. split; [intros H; apply rst_step; now left|]. induction 1 as [u v [H|[]]|u|u v _ H|u v w _ H1 _ H2]; congruence.
  - cbn [fold_left]. rewrite IH. split.
    + induction 1 as [u v [H|H]|u|u v _ H|u v w _ H1 _ H2].
      * rewrite !rd_merge in H.
        assert (AB : clos_refl_sym_trans _ (link l ((a, b) :: es)) a b) by (apply rst_step; right; now left).
        assert (EQ : forall p q, rd3 l p = rd3 l q -> clos_refl_sym_trans _ (link l ((a, b) :: es)) p q) by (intros; apply rst_step; now left).
        destruct (Z.eqb_spec (rd3 l u) (rd3 l a)) as [U|U], (Z.eqb_spec (rd3 l v) (rd3 l a)) as [V|V].
        -- apply EQ. congruence.
        -- apply rst_trans with a; [now apply EQ|]. apply rst_trans with b; [exact AB|]. now apply EQ.
        -- apply rst_trans with b; [now apply EQ|]. apply rst_trans with a; [now apply rst_sym|]. now apply EQ.
        -- now apply EQ.
      * apply rst_step. right. now right.
      * apply rst_refl.
      * now apply rst_sym.
      * now apply rst_trans with v.
    + induction 1 as [u v [H|[H|H]]|u|u v _ H|u v w _ H1 _ H2].
      * apply rst_step. left. rewrite !rd_merge. now rewrite H.
      * injection H as <- <-. apply rst_step. left. rewrite !rd_merge, Z.eqb_refl. now destruct (rd3 l b =? rd3 l a).
      * apply rst_step. now right.
      * apply rst_refl.
      * now apply rst_sym.
      * now apply rst_trans with v.
Qed.

Lemma first_spec v : rd3 first_label v = if setb v then number v else 0.
Proof. now destruct v as [[i j] k]. Qed.

Lemma number_inj a b : set_in px py pz m a -> set_in px py pz m b -> number a = number b -> a = b.
Proof.
  destruct a as [[x y] z], b as [[x' y'] z']. intros [(X & Y & Z) _] [(X' & Y' & Z') _]. unfold number. intros E.
  assert (E1 : (x * py + y) * pz + z = (x' * py + y') * pz + z') by lia.
  assert (Q1 : x * py + y = x' * py + y').
  { rewrite (Z.div_unique ((x * py + y) * pz + z) pz (x * py + y) z) by lia. rewrite E1. symmetry. apply (Z.div_unique _ pz _ z'); lia. }
  assert (Q2 : x = x').
  { rewrite (Z.div_unique (x * py + y) py x y) by lia. rewrite Q1. symmetry. apply (Z.div_unique _ py _ y'); lia. }
  subst. assert (y = y') by lia. subst. f_equal. lia.
Qed.

Lemma number_pos a : set_in px py pz m a -> 0 < number a.
Proof. destruct a as [[x y] z]. intros [(X & Y & K) _]. unfold number. assert (0 <= x * py) by (apply Z.mul_nonneg_nonneg; lia). assert (0 <= (x * py + y) * pz) by (apply Z.mul_nonneg_nonneg; lia). lia. Qed.

Lemma linked x y : clos_refl_sym_trans _ (link first_label edges) x y -> (set_in px py pz m x <-> set_in px py pz m y) /\ (set_in px py pz m x -> joined (set_in px py pz m) x y).
Proof.
  induction 1 as [u v [H|H]|u|u v _ [H1 H2]|u v w _ [H1 H2] _ [H3 H4]].
  - rewrite !first_spec in H. destruct (setb u) eqn:U, (setb v) eqn:V.
    + apply setb_spec in U, V. rewrite (number_inj u v U V H) in *. split; [tauto|]. intros _. now constructor.
    + apply setb_spec in U. pose proof (number_pos u U). lia.
    + apply setb_spec in V. pose proof (number_pos v V). lia.
    + split; [rewrite <- !setb_spec, U, V; tauto|]. rewrite <- setb_spec, U. discriminate.
  - apply edges_in in H as (A & B & T). split; [tauto|]. intros _. apply (joined_step _ u v v); auto. now constructor.
  - split; [tauto|]. intros U. now constructor.
  - split; [tauto|]. intros V. apply joined_sym. tauto.
  - split; [tauto|]. intros U. apply joined_trans with v; tauto.
Qed.

Lemma zero_kept es : forall l, (forall v, rd3 l v = 0 <-> setb v = false) -> (forall a b, In (a, b) es -> setb a = true /\ setb b = true) ->
  forall v, rd3 (fold_left merge es l) v = 0 <-> setb v = false.
Proof.
  induction es as [|[a b] es IH]; intros l H E; [exact H|]. cbn [fold_left]. apply IH; [|intros; apply E; now right].
  destruct (E a b (or_introl eq_refl)) as [A B]. intros v. rewrite rd_merge.
  assert (NA : rd3 l a <> 0) by (rewrite H; congruence). assert (NB : rd3 l b <> 0) by (rewrite H; congruence).
  destruct (Z.eqb_spec (rd3 l v) (rd3 l a)) as [V|V]; [|apply H]. rewrite <- H. split; intros Z; [contradiction|congruence].
Qed.

Lemma label_box_ok : labels_ok px py pz m label_box.
Proof.
  split.
  - intros v V. unfold label_box. rewrite zero_kept.
    + split; intros H.
      * destruct (rd3 m v) eqn:E; [|reflexivity]. enough (setb v = true) by congruence. apply setb_spec. split; assumption.
      * destruct (setb v) eqn:E; [|reflexivity]. apply setb_spec in E as [_ E]. congruence.
    + intros w. rewrite first_spec. destruct (setb w) eqn:E; [|tauto]. apply setb_spec in E. pose proof (number_pos w E). split; [lia|discriminate].
    + intros a b I. apply edges_in in I as (A & B & _). split; now apply setb_spec.
  - intros a b A B. unfold label_box. rewrite merge_all. split; [intros H; now apply linked|].
    induction 1 as [v V|x y z X T J IH]; [apply rst_refl|]. apply rst_trans with y.
    + apply rst_step. right. apply edges_in. split; [exact X|]. split; [exact (proj1 (joined_ends _ _ _ J))|exact T].
    + apply IH; [exact (proj1 (joined_ends _ _ _ J))|exact B].
Qed.
End Label.

Lemma list_min (l : list Q) : l <> [] -> exists x, In x l /\ forall y, In y l -> (x <= y)%Q.
Proof.
  induction l as [|a l IH]; intros N; [contradiction|]. destruct l as [|b l]; [exists a; split; [now left|intros y [<-|[]]; lra]|].
  destruct IH as (x & X & U); [discriminate|]. destruct (Qlt_le_dec a x) as [L|L].
  - exists a. split; [now left|]. intros y [<-|Y]; [lra|]. specialize (U y Y). lra.
  - exists x. split; [now right|]. intros y [<-|Y]; [exact L|now apply U].
Qed.
Lemma list_max (l : list Q) : l <> [] -> exists x, In x l /\ forall y, In y l -> (y <= x)%Q.
Proof.
  intros N. destruct (list_min (map Qopp l)) as (x & X & U); [now destruct l|]. apply in_map_iff in X as (y & <- & Y). exists y. split; [exact Y|].
  intros z Z. specialize (U (- z)%Q (in_map Qopp _ _ Z)). lra.
Qed.

Section Threshold.
Variables nx ny nz : Z.
Hypotheses (HX : 0 < nx) (HY : 0 < ny) (HZ : 0 < nz).
Variable lab : arr3 bool -> arr3 Z.
Hypothesis LAB : lab_ok nx ny nz lab.
Variable feats : list vec.
Hypothesis FB : forall v, feature nx ny nz feats v -> in_box nx ny nz v.
Variable emask : arr3 bool.
Variable elf : arr3 Q.
Hypothesis NF : forall c, (0 <= c <= 1)%Q -> no_five nx ny nz feats (above emask elf c).

Definition dim_at (c : Q) : nat := match elf_dim nx ny nz lab feats emask elf c with Done d => d | _ => 0%nat end.

Lemma dim_at_total c : (0 <= c <= 1)%Q -> elf_dim nx ny nz lab feats emask elf c = Done (dim_at c).
Proof.
  intros C. unfold dim_at, elf_dim.
  destruct (mask_dim_mono nx ny nz HX HY HZ lab LAB feats FB (above emask elf c) (above emask elf c)) as (d & d' & E & _); [intros v _ H; exact H|now apply NF|now apply NF|].
  now rewrite E.
Qed.

Lemma rd_above c v : rd3 (above emask elf c) v = true <-> rd3 emask v = true /\ (c <= rd3 elf v)%Q.
Proof. destruct v as [[i j] k]. cbn. unfold above. rewrite andb_true_iff, Qle_bool_iff. tauto. Qed.

Lemma dim_at_sub c c' : (0 <= c <= 1)%Q -> (0 <= c' <= 1)%Q ->
  (forall v, in_box nx ny nz v -> rd3 emask v = true -> (c' <= rd3 elf v)%Q -> (c <= rd3 elf v)%Q) -> (dim_at c' <= dim_at c)%nat.
Proof.
  intros C C' S.
  destruct (mask_dim_mono nx ny nz HX HY HZ lab LAB feats FB (above emask elf c') (above emask elf c)) as (d & d' & E & E' & L); [|now apply NF|now apply NF|].
  - intros v V H. apply rd_above in H. apply rd_above. split; [tauto|]. apply S; tauto.
  - unfold dim_at, elf_dim. now rewrite E, E'.
Qed.

Lemma dim_at_mono c c' : (0 <= c)%Q -> (c <= c')%Q -> (c' <= 1)%Q -> (dim_at c' <= dim_at c)%nat.
Proof. intros A B C. apply dim_at_sub; try lra. intros v _ _ H. lra. Qed.

Lemma dim_at_empty c : (0 <= c <= 1)%Q -> (forall v, In v (voxels nx ny nz) -> rd3 (above emask elf c) v = false) -> dim_at c = 0%nat.
Proof.
  intros _ H. unfold dim_at, elf_dim, mask_dim. replace (existsb (rd3 (above emask elf c)) (voxels nx ny nz)) with false; [reflexivity|].
  symmetry. destruct (existsb (rd3 (above emask elf c)) (voxels nx ny nz)) eqn:E; [|reflexivity]. apply existsb_exists in E as (v & V & E). rewrite H in E by exact V. discriminate.
Qed.

Definition clip (q : Q) : Q := if Qltb 1 q then 1%Q else q.

Lemma threshold_exists d : exists c, threshold dim_at d c.
Proof.
  set (vals := 0%Q :: filter (fun q => Qle_bool 0 q && Nat.ltb d (dim_at q)) (map (fun v => clip (rd3 elf v)) (voxels nx ny nz))).
  assert (IV : forall q, In q vals <-> q = 0%Q \/ (0 <= q)%Q /\ (d < dim_at q)%nat /\ exists v, In v (voxels nx ny nz) /\ q = clip (rd3 elf v)).
  { intros q. unfold vals. cbn [In]. rewrite filter_In, andb_true_iff, Qle_bool_iff, Nat.ltb_lt, in_map_iff. split.
    - intros [H|((v & E & V) & A & B)]; [left; now symmetry|right; repeat split; auto; exists v; auto].
    - intros [H|(A & B & v & V & E)]; [left; now symmetry|right; repeat split; auto; exists v; auto]. }
  assert (CL : forall q, (clip q <= 1 /\ clip q <= q)%Q). { intros q. unfold clip. destruct (Qltb_spec 1 q); lra. }
  destruct (list_max vals) as (c & C & U); [discriminate|]. exists c.
  assert (C01 : (0 <= c <= 1)%Q). { apply IV in C. destruct C as [->|(A & B & v & V & ->)]; [lra|]. destruct (CL (rd3 elf v)). lra. }
  split; [exact C01|]. split.
  - intros x X L. apply IV in C. destruct C as [->|(A & B & _)]; [lra|]. apply Nat.lt_le_trans with (dim_at c); [exact B|]. apply dim_at_mono; lra.
  - intros x X L. destruct (Nat.le_gt_cases (dim_at x) d) as [|G]; [assumption|exfalso].
    set (up := filter (fun v => rd3 (above emask elf x) v) (voxels nx ny nz)).
    destruct (list_min (map (fun v => rd3 elf v) up)) as (q & Q1 & Q2).
    { intros E. apply map_eq_nil in E. rewrite dim_at_empty in G; [lia|lra|]. intros v V. destruct (rd3 (above emask elf x) v) eqn:H; [|reflexivity].
      assert (I : In v up) by (apply filter_In; auto). rewrite E in I. destruct I. }
    apply in_map_iff in Q1 as (v & <- & V). apply filter_In in V as [V M]. apply rd_above in M as [M1 M2].
    set (q := rd3 elf v) in *. assert (XQ : (x <= clip q)%Q) by (unfold clip; destruct (Qltb_spec 1 q); lra).
    assert (D : (dim_at x <= dim_at (clip q))%nat).
    { destruct (CL q). apply dim_at_sub; [lra|lra|]. intros w W Ew Lw. assert (q <= rd3 elf w)%Q; [|lra]. apply Q2. apply in_map_iff. exists w. split; [reflexivity|].
      apply filter_In. split; [destruct w as [[i j] k]; apply in_voxels; exact W|]. apply rd_above. auto. }
    assert (I : In (clip q) vals). { apply IV. right. repeat split; [lra|lia|]. exists v. auto. }
    specialize (U _ I). lra.
Qed.
End Threshold.
