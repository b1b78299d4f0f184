From Coq Require Import QArith Qpower Qabs Lqa Qfield.
From Verif Require Import Base RootsModel RootsProofs LabelsProofs UnionModel ChargeModel CoordModel NearModel NearSpec NearProofs WeightModel RefineModel RadModel RadSpec RadProofs.
Local Open Scope Z_scope.

Lemma half_pow_spec n : (half_pow n == (1 # 2) ^ Z.of_nat n)%Q.
Proof.
  induction n as [|n IH]; [reflexivity|]. cbn [half_pow]. rewrite IH, Nat2Z.inj_succ. unfold Z.succ.
  rewrite Qpower_plus by discriminate. unfold Qdiv. apply Qmult_comp; reflexivity.
Qed.

Lemma qmax_gt h a b : (h < qmax a b)%Q <-> (h < a)%Q \/ (h < b)%Q.
Proof. unfold qmax. destruct (Qltb_spec a b); split; try tauto; intros [X|X]; lra. Qed.

Lemma vmaxabs_gt h x y z : (h < vmaxabs (x, y, z))%Q <-> (h < Qabs x)%Q \/ (h < Qabs y)%Q \/ (h < Qabs z)%Q.
Proof. unfold vmaxabs. rewrite !qmax_gt, !qabs_Qabs. tauto. Qed.

Section T.
Variable interp : vec -> Q.
Variable nearest : vec -> Z.
Variable coords : list vec.
Variable covalent_labels : list bool.
Variable refinements : nat.
Hypothesis FI : of_place Qeq interp.
Hypothesis FN : of_place eq nearest.
Hypothesis NR : forall p, -1 <= nearest p < Z.of_nat (length coords).
Hypothesis NE : coords <> [].

Let label_at := label_at nearest coords.
Let cov (l : Z) := nth (Z.to_nat (l mod Z.of_nat (length coords))) covalent_labels false.

Lemma len_pos : (0 < length coords)%nat.
Proof. clear -NE. destruct coords; [congruence|cbn; lia]. Qed.

Lemma label_at_ok p : labelled nearest coords p (label_at p).
Proof.
  unfold labelled, label_at, RadModel.label_at, np_get, np_idx. pose proof (NR p) as NRp. pose proof len_pos as LP.
  assert (E : np_get coords (nearest p) = nth_error coords (if (nearest p =? -1)%Z then length coords - 1 else Z.to_nat (nearest p))%nat).
  { unfold np_get, np_idx. destruct (Z.eqb_spec (nearest p) (-1)) as [E|E].
    - rewrite E. replace ((0 <=? -1) && (-1 <? Z.of_nat (length coords)))%bool with false by lia.
      replace ((- Z.of_nat (length coords) <=? -1) && (-1 <? 0))%bool with true by lia. f_equal. lia.
    - replace ((0 <=? nearest p) && (nearest p <? Z.of_nat (length coords)))%bool with true by lia. reflexivity. }
  unfold np_get, np_idx in E. rewrite E. clear E.
  set (k := (if (nearest p =? -1)%Z then _ else _)%nat).
  destruct (nth_error coords k) as [[[x y] z]|] eqn:Ek.
  - exists x, y, z. split; [reflexivity|]. destruct p as ((px, py), pz). cbn [vsub].
    destruct (Qltb_spec (1 # 2) (vmaxabs (x - px, y - py, z - pz)%Q)) as [H|H].
    + right. split; [now apply vmaxabs_gt|reflexivity].
    + left. split; [|reflexivity]. repeat split; apply Qnot_lt_le; intro X; apply Qle_not_lt in H; apply H, vmaxabs_gt; tauto.
  - apply nth_error_None in Ek. unfold k in Ek. destruct (Z.eqb_spec (nearest p) (-1)); lia.
Qed.

Lemma label_at_place p q : same_place p q -> label_at p = label_at q.
Proof.
  intro H. unfold label_at, RadModel.label_at. rewrite (FN _ _ H).
  set (s := match np_get coords (nearest q) with Some c => c | None => vzero end). clearbody s.
  replace (Qltb (1 # 2) (vmaxabs (vsub s q))) with (Qltb (1 # 2) (vmaxabs (vsub s p))); [reflexivity|].
  destruct s as ((x, y), z), p as ((px, py), pz), q as ((qx, qy), qz). cbn in H. destruct H as (A & B & C). cbn [vsub].
  destruct (Qltb_spec (1 # 2) (vmaxabs (x - px, y - py, z - pz)%Q)) as [H|H];
  destruct (Qltb_spec (1 # 2) (vmaxabs (x - qx, y - qy, z - qz)%Q)) as [H'|H']; try reflexivity; exfalso.
  - apply vmaxabs_gt in H. rewrite A, B, C in H. apply (proj2 (vmaxabs_gt _ _ _ _)) in H. lra.
  - apply vmaxabs_gt in H'. rewrite <- A, <- B, <- C in H'. apply (proj2 (vmaxabs_gt _ _ _ _)) in H'. lra.
Qed.

Variables a b : vec.
Variables dist res : Q.
Variable atom : Z.
Hypothesis N3 : 3 <= num_points dist res < 1000000.

Let n := Z.to_nat (num_points dist res).
Let last := inject_Z (Z.of_nat n - 1).
Let step := vmap (fun x => (x / last)%Q) (vsub b a).
Let val (t : Q) := interp (on_bond a b (t / inject_Z (Z.of_nat n - 1))).
Let lab (i : nat) := label_at (on_bond a b (inject_Z (Z.of_nat i) / inject_Z (Z.of_nat n - 1))).

Lemma n3 : (3 <= n)%nat /\ Z.of_nat n < 1000000.
Proof. unfold n. lia. Qed.

Lemma last_pos : (0 < last)%Q.
Proof. unfold last. pose proof n3. unfold Qlt. cbn. lia. Qed.

Lemma line t : same_place (vadd a (vscale t step)) (on_bond a b (t / inject_Z (Z.of_nat n - 1))).
Proof.
  fold last. pose proof last_pos as L. unfold step, vadd, vscale, vmap, vsub, on_bond, same_place.
  destruct a as ((x, y), z), b as ((x', y'), z'). repeat split; field; lra.
Qed.

Lemma val_at t : (interp (at_ step a t) == val t)%Q.
Proof. apply FI, line. Qed.

Lemma val_comp t u : (t == u)%Q -> (val t == val u)%Q.
Proof. intro H. rewrite <- !val_at. now apply FI, at_comp. Qed.

Lemma values_nth i : (i < n)%nat -> (nth i (map (fun i => interp (vadd a (vscale (inject_Z (Z.of_nat i)) step))) (seq 0 n)) 0 == val (inject_Z (Z.of_nat i)))%Q.
Proof.
  intro H. rewrite (nth_indep _ _ (interp (vadd a (vscale (inject_Z (Z.of_nat 0)) step)))) by (now rewrite map_length, seq_length).
  rewrite (map_nth (fun i => interp (vadd a (vscale (inject_Z (Z.of_nat i)) step)))), seq_nth by exact H. apply val_at.
Qed.
Lemma labels_nth i : (i < n)%nat -> nth i (map (fun i => label_at (vadd a (vscale (inject_Z (Z.of_nat i)) step))) (seq 0 n)) 0 = lab i.
Proof.
  intro H. rewrite (nth_indep _ _ (label_at (vadd a (vscale (inject_Z (Z.of_nat 0)) step)))) by (now rewrite map_length, seq_length).
  rewrite (map_nth (fun i => label_at (vadd a (vscale (inject_Z (Z.of_nat i)) step)))), seq_nth by exact H. apply label_at_place, line.
Qed.

Lemma in_labels x : In x (map (fun i => label_at (vadd a (vscale (inject_Z (Z.of_nat i)) step))) (seq 0 n)) <-> exists i, (i < n)%nat /\ x = lab i.
Proof.
  rewrite in_map_iff. split.
  - intros (i & <- & H). apply in_seq in H. exists i. split; [lia|]. apply label_at_place, line.
  - intros (i & H & ->). exists i. split; [apply label_at_place, line|apply in_seq; lia].
Qed.

Lemma single_unique (l : list Z) : l <> [] -> (length (np_unique l) = 1%nat <-> forall x y, In x l -> In y l -> x = y).
Proof.
  intro H. split.
  - intros E x y Hx Hy. apply np_unique_in in Hx, Hy. destruct (np_unique l) as [|u [|? ?]]; cbn in E; try discriminate.
    destruct Hx as [<-|[]], Hy as [<-|[]]. reflexivity.
  - intro E. pose proof (np_unique_NoDup l) as ND. destruct (np_unique l) as [|u [|w t]] eqn:Eu; [|reflexivity|].
    + destruct l as [|x t]; [congruence|]. assert (In x (np_unique (x :: t))) by (apply np_unique_in; now left). rewrite Eu in *. contradiction.
    + exfalso. apply NoDup_cons_iff in ND as (ND & _). apply ND. left.
      apply E; apply np_unique_in; rewrite Eu; cbn; auto.
Qed.

Lemma near_million mid i : (-1 <= mid)%Q -> (mid <= inject_Z (Z.of_nat n - 1))%Q -> (i < n)%nat -> (Qabs (inject_Z (Z.of_nat i) - mid) < 1000000)%Q.
Proof.
  intros H1 H2 Hi. pose proof n3 as (A & B). apply Qabs_Qlt_condition.
  assert (0 <= inject_Z (Z.of_nat i))%Q by (unfold Qle; cbn; lia).
  assert (inject_Z (Z.of_nat i) <= inject_Z (Z.of_nat n - 1))%Q by (unfold Qle; cbn; lia).
  assert (inject_Z (Z.of_nat n - 1) <= 999998)%Q by (unfold Qle; cbn; lia). split; lra.
Qed.

Theorem radius_rule_holds : radius_rule n lab cov val atom ((1 # 2) ^ Z.of_nat refinements)
  (get_elf_radius_frac interp nearest coords covalent_labels refinements atom a b dist res).
Proof.
  pose proof n3 as (Hn & Hn'). unfold get_elf_radius_frac. fold n. fold last. fold step. cbn zeta.
  set (values := map (fun i => interp (vadd a (vscale (inject_Z (Z.of_nat i)) step))) (seq 0 n)).
  fold label_at.
  set (labels := map (fun i => label_at (vadd a (vscale (inject_Z (Z.of_nat i)) step))) (seq 0 n)).
  assert (LN : labels <> []) by (unfold labels; intro X; apply map_eq_nil in X; destruct n; [lia|discriminate]).
  assert (LI : forall x, In x labels <-> exists i, (i < n)%nat /\ x = lab i) by apply in_labels.
  assert (LV : forall i, (i < n)%nat -> (nth i values 0 == val (inject_Z (Z.of_nat i)))%Q) by apply values_nth.
  assert (LL : forall i, (i < n)%nat -> nth i labels 0 = lab i) by apply labels_nth.
  assert (LLen : length labels = n) by (unfold labels; now rewrite map_length, seq_length).
  clearbody values labels.
  destruct (Nat.eqb_spec (length (np_unique labels)) 1) as [E1|E1].
  { apply rr_single; [reflexivity|]. intros i Hi. apply (proj1 (single_unique labels LN) E1); apply LI; [exists i|exists 0%nat]; split; (reflexivity || lia). }
  assert (D : exists i j, (i < n)%nat /\ (j < n)%nat /\ lab i <> lab j).
  { destruct (List.forallb (fun i => forallb (fun j => lab i =? lab j) (seq 0 n)) (seq 0 n)) eqn:E.
    - exfalso. apply E1, (single_unique labels LN). intros x y Hx Hy. apply LI in Hx as (i & Hi & ->). apply LI in Hy as (j & Hj & ->).
      rewrite forallb_forall in E. specialize (E i ltac:(apply in_seq; lia)). rewrite forallb_forall in E.
      specialize (E j ltac:(apply in_seq; lia)). now apply Z.eqb_eq.
    - apply Bool.not_true_iff_false in E. destruct (existsb (fun i => existsb (fun j => negb (lab i =? lab j)) (seq 0 n)) (seq 0 n)) eqn:X.
      + apply existsb_exists in X as (i & Hi & X). apply existsb_exists in X as (j & Hj & X). apply in_seq in Hi, Hj.
        exists i, j. repeat split; lia.
      + exfalso. apply E. apply forallb_forall. intros i Hi. apply forallb_forall. intros j Hj.
        destruct (Z.eqb_spec (lab i) (lab j)) as [|Ne]; [reflexivity|]. exfalso.
        assert (X' : existsb (fun i => existsb (fun j => negb (lab i =? lab j)) (seq 0 n)) (seq 0 n) = true); [|congruence].
        apply existsb_exists. exists i. split; [exact Hi|]. apply existsb_exists. exists j. split; [exact Hj|].
        apply Bool.negb_true_iff. now apply Z.eqb_neq. }
  pose proof (scan_spec (is_covalent coords covalent_labels) (nth 0 labels 0) (nth (n - 1) labels 0) (np_unique labels) false) as SC.
  destruct (scan_labels _ _ _ _ _) as (cv, ot). destruct SC as (SO & SC).
  rewrite !LL in SO by lia. change (is_covalent coords covalent_labels) with cov in *.
  destruct ot.
  { apply rr_foreign; [reflexivity|]. destruct (proj1 SO eq_refl) as (x & Hx & A & B & C). apply (proj1 (np_unique_in _ _)), (proj1 (LI _)) in Hx as (i & Hi & ->).
    exists i. auto. }
  specialize (SC eq_refl).
  assert (SO' : forall i, (i < n)%nat -> cov (lab i) = true \/ lab i = lab 0%nat \/ lab i = lab (n - 1)%nat).
  { intros i Hi. destruct (cov (lab i)) eqn:Ec; [now left|right]. destruct (Z.eq_dec (lab i) (lab 0%nat)) as [|N0]; [now left|].
    destruct (Z.eq_dec (lab i) (lab (n - 1)%nat)) as [|N1]; [now right|]. exfalso.
    assert (X : false = true); [|discriminate]. apply SO. exists (lab i). split; [apply np_unique_in, LI; exists i; auto|auto]. }
  clear SO.
  set (okmax := fun i => _ && (Qle_bool (nth (i - 1) values 0%Q) (nth i values 0%Q) && _)).
  set (okmin := fun i => _ && (Qle_bool (nth i values 0%Q) (nth (i - 1) values 0%Q) && _)).
  assert (OMAX : forall i, (i < n)%nat /\ okmax i = true <-> cov (lab i) = true /\ local_max (fun i => val (inject_Z (Z.of_nat i))) n i).
  { intro i. unfold okmax, local_max. rewrite !Bool.andb_true_iff, !Bool.negb_true_iff, !Nat.eqb_neq, Qle_bool_iff, Qltb_lt. split.
    - intros (Hi & (Ho & I0 & I1) & V1 & V2). rewrite LL in Ho by exact Hi. rewrite !LV in V1, V2 by lia. repeat split; auto; lia.
    - intros (Ho & I & V1 & V2). assert (Hi : (i < n)%nat) by lia. rewrite (LL i Hi), !LV by lia. repeat split; auto; lia. }
  assert (OMIN : forall i, (i < n)%nat /\ okmin i = true <-> local_min (fun i => val (inject_Z (Z.of_nat i))) n i).
  { intro i. unfold okmin, local_min. rewrite !Bool.andb_true_iff, !Bool.negb_true_iff, !Nat.eqb_neq, Qle_bool_iff, Qltb_lt. split.
    - intros (Hi & (I0 & I1) & V1 & V2). rewrite !LV in V1, V2 by lia. repeat split; auto; lia.
    - intros (I & V1 & V2). assert (Hi : (i < n)%nat) by lia. rewrite !LV by lia. repeat split; auto; lia. }
  pose proof (nearest_index_seq okmax (last / 2) n 1000000) as NM.
  assert (LP := last_pos).
  specialize (NM ltac:(intros i Hi; apply near_million; [|fold last|exact Hi];
    (assert ((last == last / 2 + last / 2)%Q) by field; lra))).
  assert (FS : foreign_start lab n atom (first_foreign atom 0 labels)).
  { destruct (first_foreign_spec atom labels 0 lab) as [(i & A & B & C & D' & E)|(A & B)]; [intros i Hi; apply LL; lia| |]; rewrite LLen in *; cbn in *.
    - left. exists i. auto.
    - right. auto. }
  set (mx := if cv then _ else None).
  assert (MX : match mx with
               | Some k => (k < n)%nat /\ best (last / 2) (fun i => cov (lab i) = true /\ local_max (fun i => val (inject_Z (Z.of_nat i))) n i) k
               | None => forall i, cov (lab i) = true -> ~ local_max (fun i => val (inject_Z (Z.of_nat i))) n i end).
  { unfold mx. destruct cv.
    - destruct (nearest_index okmax (last / 2) (seq 0 n) None 1000000) as [k|].
      + destruct NM as (Hk & NM). split; [exact Hk|]. exact (best_ext _ _ _ _ OMAX NM).
      + intros i Hc Hm. destruct (proj2 (OMAX i) (conj Hc Hm)) as (Hi & Ho). rewrite (NM i Hi) in Ho. discriminate.
    - intros i Hc Hm. assert (X : false = true); [|discriminate]. apply SC. right. exists (lab i). split; [|exact Hc].
      apply np_unique_in, LI. exists i. split; [destruct Hm; lia|reflexivity]. }
  clearbody mx. clear SC NM.
  destruct mx as [k|].
  - destruct MX as (Hk & MX). pose proof MX as ((_ & (Hk0 & _)) & _). destruct k as [|k']; [lia|]. set (k := S k') in *.
    assert (P : same_place (at_ step a (inject_Z (Z.of_nat k))) (at_ step a (inject_Z (Z.of_nat k)))) by (apply at_comp; reflexivity).
    destruct (refine_max interp step a FI refinements 1 _ (interp (at_ step a (inject_Z (Z.of_nat k)))) (inject_Z (Z.of_nat k)) ltac:(reflexivity) P ltac:(reflexivity)) as (R1 & R2).
    assert (R3 := fun m S => refine_peak interp step a FI (inject_Z (Z.of_nat k)) m refinements S 1 _
       (interp (at_ step a (inject_Z (Z.of_nat k)))) (inject_Z (Z.of_nat k)) ltac:(reflexivity) P ltac:(reflexivity)).
    fold (at_ step a (inject_Z (Z.of_nat k))). set (x := refine _ _ _ _ _ _ _ _) in *.
    apply rr_covalent with (k := k) (x := x); auto.
    + rewrite <- !val_at. exact R2.
    + intros m S. rewrite <- half_pow_spec, <- (Qmult_1_l (half_pow _)). apply R3.
      * destruct S as (S1 & S2 & S3). split; [|split; [|exact S3]]; intros; rewrite !val_at; auto.
      * setoid_replace (inject_Z (Z.of_nat k) - inject_Z (Z.of_nat k))%Q with 0%Q by ring. discriminate.
      * destruct S as (_ & _ & S3). apply Qabs_Qle_condition. lra.
    + reflexivity.
  - pose proof (nearest_index_seq okmin (inject_Z (first_foreign atom 0 labels)) n 1000000) as NM.
    specialize (NM ltac:(intros i Hi; apply near_million; [| |exact Hi];
      (destruct FS as [(j & A & -> & _)|(-> & _)]; unfold Qle; cbn; lia))).
    destruct (nearest_index okmin (inject_Z (first_foreign atom 0 labels)) (seq 0 n) None 1000000) as [k|].
    + destruct NM as (Hk & NM). apply (best_ext _ _ _ _ OMIN) in NM. pose proof NM as ((Hk0 & _) & _). destruct k as [|k']; [lia|]. set (k := S k') in *.
      assert (P : same_place (at_ step a (inject_Z (Z.of_nat k))) (at_ step a (inject_Z (Z.of_nat k)))) by (apply at_comp; reflexivity).
      pose proof (neg_place _ FI) as FI'. rewrite refine_neg.
      destruct (refine_max _ step a FI' refinements 1 _ (- interp (at_ step a (inject_Z (Z.of_nat k)))) (inject_Z (Z.of_nat k)) ltac:(reflexivity) P ltac:(reflexivity)) as (R1 & R2).
      assert (R3 := fun m S => refine_peak _ step a FI' (inject_Z (Z.of_nat k)) m refinements S 1 _
         (- interp (at_ step a (inject_Z (Z.of_nat k)))) (inject_Z (Z.of_nat k)) ltac:(reflexivity) P ltac:(reflexivity)).
      fold (at_ step a (inject_Z (Z.of_nat k))). set (x := refine _ _ _ _ _ _ _ _) in *.
      apply rr_ionic with (k := k) (x := x) (m := first_foreign atom 0 labels); auto.
      * rewrite <- !val_at. lra.
      * intros m S. rewrite <- half_pow_spec, <- (Qmult_1_l (half_pow _)). apply R3.
        -- destruct S as (S1 & S2 & S3). split; [|split; [|exact S3]]; intros; rewrite !val_at; auto.
        -- setoid_replace (inject_Z (Z.of_nat k) - inject_Z (Z.of_nat k))%Q with 0%Q by ring. discriminate.
        -- destruct S as (_ & _ & S3). apply Qabs_Qle_condition. lra.
      * reflexivity.
    + apply rr_failed; [reflexivity|exact MX|]. intros i Hm. destruct (proj2 (OMIN i) Hm) as (Hi & Ho). rewrite (NM i Hi) in Ho. discriminate.
Qed.

Lemma rule_bounds f c e eps : radius_rule n lab cov val atom eps (f, c, e) -> (0 < f < 1)%Q.
Proof.
  pose proof last_pos as LP. unfold last in LP.
  assert (G : forall k x, (0 < k < n - 1)%nat -> (Qabs (x - inject_Z (Z.of_nat k)) < 1)%Q -> (f == x / inject_Z (Z.of_nat n - 1))%Q -> (0 < f < 1)%Q).
  { intros k x Hk Hx Hf. apply Qabs_Qlt_condition in Hx. rewrite Hf.
    assert (1 <= inject_Z (Z.of_nat k))%Q by (unfold Qle; cbn; lia).
    assert (inject_Z (Z.of_nat k) <= inject_Z (Z.of_nat n - 1) - 1)%Q by (unfold Qle; cbn; lia).
    split; [apply Qlt_shift_div_l|apply Qlt_shift_div_r]; lra. }
  intro R. inversion R; subst; try lra.
  - match goal with H : best _ _ _ |- _ => destruct H as ((_ & H & _) & _) end. eapply G; eassumption.
  - match goal with H : best _ _ _ |- _ => destruct H as ((H & _) & _) end. eapply G; eassumption.
Qed.
End T.

Lemma num_points_spec d res : num_points d res mod 2 = 1 /\ (d * res - (1 # 2) <= inject_Z (num_points d res) <= d * res + (3 # 2))%Q.
Proof.
  unfold num_points. pose proof (py_round_spec (d * res)) as H. unfold nearest_even in H. set (r := py_round (d * res)) in *.
  destruct H as (H & _).
  destruct (Z.eqb_spec (r mod 2) 0) as [E|E].
  - rewrite inject_Z_plus. change (inject_Z 1) with 1%Q. split; [rewrite Zplus_mod, E; reflexivity|lra].
  - split; [pose proof (Z.mod_pos_bound r 2); lia|lra].
Qed.
