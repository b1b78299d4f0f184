From Verif Require Import Base GridModel GridProofs NeighModel NeighSpec.
From Coq Require Import ZifyBool ZifyNat.

Section Proofs.
Variables nx ny nz : Z.
Hypothesis Hx : 0 < nx.
Hypothesis Hy : 0 < ny.
Hypothesis Hz : 0 < nz.

Notation in_grid := (in_grid nx ny nz).
Notation step_to := (step_to nx ny nz).
Notation ptarget := (periodic_target nx ny nz).

Lemma step_to_periodic v s : in_grid v -> unit_offset s -> ptarget v s (step_to v s).
Proof.
  destruct v as [[i j] k], s as [[a b] c]. unfold NeighModel.step_to, periodic_target, wrap_point.
  intros (H1 & H2 & H3) (U1 & U2 & U3). rewrite !wrap1_mod by lia. reflexivity.
Qed.

Lemma step_to_in_grid v s : in_grid v -> unit_offset s -> in_grid (step_to v s).
Proof.
  destruct v as [[i j] k], s as [[a b] c]. unfold NeighModel.step_to. intros H (U1 & U2 & U3).
  now apply wrap_point_in_grid.
Qed.

Lemma ptarget_fun v s w1 w2 : ptarget v s w1 -> ptarget v s w2 -> w1 = w2.
Proof. destruct v as [[i j] k], s as [[a b] c]. unfold periodic_target. congruence. Qed.

Lemma ptarget_in_grid v s w : ptarget v s w -> in_grid w.
Proof.
  destruct v as [[i j] k], s as [[a b] c]. unfold periodic_target. intros ->.
  unfold GridModel.in_grid. repeat split; apply Z.mod_pos_bound; lia.
Qed.

Lemma rd_value_at {A} (a : arr3 A) v : rd a v = value_at a v.
Proof. destruct v as [[i j] k]. reflexivity. Qed.

(** *** get_best_neighbor *)
Section Best.
Variable data : arr3 Q.
Variable v : Z * Z * Z.
Hypothesis Hv : in_grid v.

Definition sl (nb : offset * Q) : Q :=
  ((rd data (step_to v (fst nb)) - rd data v) / snd nb)%Q.

Definition Ires (done : list (offset * Q)) (st : Q * (offset * (Z * Z * Z))) : Prop :=
  (st = (0%Q, ((0, 0, 0), v)) /\ (forall nb, In nb done -> (sl nb <= 0)%Q)) \/
  (exists pre s d post, done = pre ++ (s, d) :: post /\
     st = (sl (s, d), (s, step_to v s)) /\ (0 < sl (s, d))%Q /\
     (forall nb, In nb pre -> (sl nb < sl (s, d))%Q) /\
     (forall nb, In nb post -> (sl nb <= sl (s, d))%Q)).

Lemma Ires_step done st nb :
  Ires done st -> Ires (done ++ [nb]) (best_step nx ny nz data v st nb).
Proof.
  destruct nb as [s d]. unfold best_step. fold (sl (s, d)).
  change ((rd data (step_to v s) - rd data v) / d)%Q with (sl (s, d)).
  intros [(-> & H)|(pre & s0 & d0 & post & -> & -> & Hpos & Hpre & Hpost)]; cbn [fst].
  - destruct (Qltb_spec 0 (sl (s, d))) as [L|L].
    + right. exists done, s, d, []. repeat split; auto.
      * intros nb Hn. eapply Qle_lt_trans; [now apply H|exact L].
      * intros nb [].
    + left. split; [reflexivity|]. intros nb Hn. apply in_app_iff in Hn as [Hn|[<-|[]]]; auto.
  - destruct (Qltb_spec (sl (s0, d0)) (sl (s, d))) as [L|L].
    + right. exists (pre ++ (s0, d0) :: post), s, d, []. repeat split; auto.
      * lra.
      * intros nb Hn. apply in_app_iff in Hn as [Hn|[<-|Hn]].
        -- specialize (Hpre _ Hn). lra.
        -- exact L.
        -- specialize (Hpost _ Hn). lra.
      * intros nb [].
    + right. exists pre, s0, d0, (post ++ [(s, d)]). repeat split; auto.
      * rewrite <- app_assoc. reflexivity.
      * intros nb Hn. apply in_app_iff in Hn as [Hn|[<-|[]]]; auto.
Qed.

Lemma Ires_fold rest : forall done st,
  Ires done st -> Ires (done ++ rest) (fold_left (best_step nx ny nz data v) rest st).
Proof.
  induction rest as [|nb t IH]; intros done st H; simpl.
  - now rewrite app_nil_r.
  - replace (done ++ nb :: t) with ((done ++ [nb]) ++ t) by now rewrite <- app_assoc.
    apply IH. now apply Ires_step.
Qed.

Lemma best_neighbor_inv nbs :
  Ires nbs (fold_left (best_step nx ny nz data v) nbs (0%Q, ((0, 0, 0), v))).
Proof.
  apply (Ires_fold nbs []). left. split; [reflexivity|]. intros nb [].
Qed.

Lemma sl_slope nb : unit_offset (fst nb) -> slope nx ny nz data v nb (sl nb).
Proof.
  intros U. exists (step_to v (fst nb)). split; [now apply step_to_periodic|].
  unfold sl. change @rd with @value_at. reflexivity.
Qed.

Lemma slope_sl nb q : unit_offset (fst nb) -> slope nx ny nz data v nb q -> (q == sl nb)%Q.
Proof.
  intros U (w & Hw & E).
  pose proof (ptarget_fun _ _ _ _ Hw (step_to_periodic _ _ Hv U)) as ->.
  rewrite E. unfold sl. change @rd with @value_at. reflexivity.
Qed.

Lemma div_pos_sign (a d : Q) : (0 < d)%Q -> ((0 < a / d)%Q <-> (0 < a)%Q).
Proof.
  intros Hd. split; intro H.
  - assert (E : (a == (a / d) * d)%Q) by (field; lra). rewrite E. nra.
  - apply Qlt_shift_div_l; [exact Hd|]. lra.
Qed.

Lemma sl_pos s d : (0 < d)%Q -> ((0 < sl (s, d))%Q <-> (rd data v < rd data (step_to v s))%Q).
Proof.
  intros Hd. unfold sl. cbn [fst snd]. rewrite div_pos_sign by exact Hd. split; lra.
Qed.

Theorem best_neighbor_spec nbs :
  (forall s d, In (s, d) nbs -> unit_offset s /\ (0 < d)%Q) ->
  let '(t, w) := get_best_neighbor nx ny nz data v nbs in
  (t = (0, 0, 0) /\ w = v /\
     forall s d u, In (s, d) nbs -> ptarget v s u -> (value_at data u <= value_at data v)%Q)
  \/
  (exists pre d post q, nbs = pre ++ (t, d) :: post /\ ptarget v t w /\
     (value_at data v < value_at data w)%Q /\ slope nx ny nz data v (t, d) q /\
     (forall nb q', In nb pre -> slope nx ny nz data v nb q' -> (q' < q)%Q) /\
     (forall nb q', In nb post -> slope nx ny nz data v nb q' -> (q' <= q)%Q)).
Proof.
  intros Hn. unfold get_best_neighbor. pose proof (best_neighbor_inv nbs) as I.
  destruct I as [(E & H)|(pre & s & d & post & E & Est & Hpos & Hpre & Hpost)].
  - rewrite E. cbn [snd]. left. repeat split; auto.
    intros s d u Hi Ht. destruct (Hn _ _ Hi) as [U D]. specialize (H _ Hi).
    rewrite (ptarget_fun _ _ _ _ Ht (step_to_periodic _ _ Hv U)).
    apply Qnot_lt_le. intro L. apply (sl_pos s d D) in L. apply (Qlt_not_le _ _ L). exact H.
  - rewrite Est. cbn [snd]. right. exists pre, d, post, (sl (s, d)).
    assert (Hi : In (s, d) nbs) by (rewrite E; apply in_elt).
    destruct (Hn _ _ Hi) as [U D].
    assert (Hpre' : forall nb, In nb pre -> unit_offset (fst nb)).
    { intros [a b] Hb. apply (Hn a b). rewrite E. apply in_or_app. now left. }
    assert (Hpost' : forall nb, In nb post -> unit_offset (fst nb)).
    { intros [a b] Hb. apply (Hn a b). rewrite E. apply in_or_app. right. now right. }
    split; [exact E|]. split; [now apply step_to_periodic|].
    split. { now apply (sl_pos s d D). }
    split; [now apply (sl_slope (s, d))|]. split.
    + intros nb q' Hb Hs. apply slope_sl in Hs; [|now apply Hpre']. rewrite Hs. auto.
    + intros nb q' Hb Hs. apply slope_sl in Hs; [|now apply Hpost']. rewrite Hs. auto.
Qed.
End Best.

Lemma best_neighbor_fixed_iff data v nbs :
  in_grid v -> (forall s d, In (s, d) nbs -> unit_offset s /\ (0 < d)%Q) ->
  (snd (get_best_neighbor nx ny nz data v nbs) = v <->
   locally_highest nx ny nz data (map fst nbs) v).
Proof.
  intros Hv Hn. pose proof (best_neighbor_spec data v Hv nbs Hn) as S.
  destruct (get_best_neighbor nx ny nz data v nbs) as [t w]. cbn [snd].
  unfold locally_highest. split.
  - intros ->. destruct S as [(_ & _ & H)|(pre & d & post & q & _ & Ht & L & _)].
    + intros s u Hi Hu. apply in_map_iff in Hi as ([s' d] & <- & Hi). eauto.
    + exfalso. lra.
  - intros H. destruct S as [(_ & E & _)|(pre & d & post & q & E & Ht & L & _)]; [exact E|].
    exfalso. specialize (H t w).
    assert (In t (map fst nbs)).
    { apply in_map_iff. exists (t, d). split; [reflexivity|]. rewrite E. apply in_elt. }
    specialize (H H0 Ht). lra.
Qed.

Lemma best_neighbor_in_grid data v nbs :
  in_grid v -> (forall s d, In (s, d) nbs -> unit_offset s /\ (0 < d)%Q) ->
  in_grid (snd (get_best_neighbor nx ny nz data v nbs)).
Proof.
  intros Hv Hn. pose proof (best_neighbor_spec data v Hv nbs Hn) as S.
  destruct (get_best_neighbor nx ny nz data v nbs) as [t w]. cbn [snd].
  destruct S as [(_ & -> & _)|(pre & d & post & q & _ & Ht & _)]; [exact Hv|].
  eapply ptarget_in_grid; eauto.
Qed.

(** *** loops with break *)
Lemma is_max_loop_spec data v ts :
  in_grid v -> (forall s, In s ts -> unit_offset s) ->
  (is_max_loop nx ny nz data false v ts = true <-> locally_highest nx ny nz data ts v).
Proof.
  intros Hv. unfold locally_highest. induction ts as [|s t IH]; intros Hu; simpl.
  - split; [intros _ ? ? []|reflexivity].
  - assert (Us : unit_offset s) by (apply Hu; now left).
    assert (IH' := IH (fun s' h => Hu s' (or_intror h))). clear IH.
    change @rd with @value_at.
    destruct (Qltb_spec (value_at data v) (value_at data (step_to v s))) as [L|L].
    + split; [discriminate|]. intro H.
      specialize (H s (step_to v s) (or_introl eq_refl) (step_to_periodic _ _ Hv Us)). exfalso. lra.
    + rewrite IH'. split.
      * intros H s' w [<-|Hi] Hw; [|eauto].
        now rewrite (ptarget_fun _ _ _ _ Hw (step_to_periodic _ _ Hv Us)).
      * intros H s' w Hi Hw. eapply H; eauto.
Qed.

Lemma is_min_loop_spec data v ts :
  in_grid v -> (forall s, In s ts -> unit_offset s) ->
  (is_max_loop nx ny nz data true v ts = true <-> locally_lowest nx ny nz data ts v).
Proof.
  intros Hv. unfold locally_lowest. induction ts as [|s t IH]; intros Hu; simpl.
  - split; [intros _ ? ? []|reflexivity].
  - assert (Us : unit_offset s) by (apply Hu; now left).
    assert (IH' := IH (fun s' h => Hu s' (or_intror h))). clear IH.
    change @rd with @value_at.
    destruct (Qltb_spec (value_at data (step_to v s)) (value_at data v)) as [L|L].
    + split; [discriminate|]. intro H.
      specialize (H s (step_to v s) (or_introl eq_refl) (step_to_periodic _ _ Hv Us)). exfalso. lra.
    + rewrite IH'. split.
      * intros H s' w [<-|Hi] Hw; [|eauto].
        now rewrite (ptarget_fun _ _ _ _ Hw (step_to_periodic _ _ Hv Us)).
      * intros H s' w Hi Hw. eapply H; eauto.
Qed.

Lemma edge_loop_spec lab vac v ts :
  in_grid v -> (forall s, In s ts -> unit_offset s) ->
  (edge_loop nx ny nz lab vac v ts = true <->
   exists s w, In s ts /\ ptarget v s w /\ value_at vac w = false /\
               value_at lab w <> value_at lab v).
Proof.
  intros Hv. induction ts as [|s t IH]; intros Hu; simpl.
  - split; [discriminate|]. intros (s & w & [] & _).
  - assert (Us : unit_offset s) by (apply Hu; now left).
    assert (IH' := IH (fun s' h => Hu s' (or_intror h))). clear IH.
    change @rd with @value_at.
    destruct (negb (value_at lab (step_to v s) =? value_at lab v) &&
              negb (value_at vac (step_to v s)))%bool eqn:E.
    + split; [|reflexivity]. intros _. exists s, (step_to v s).
      apply andb_true_iff in E as [E1 E2]. repeat split.
      * now left.
      * now apply step_to_periodic.
      * now apply negb_true_iff.
      * lia.
    + rewrite IH'. split.
      * intros (s' & w & Hi & R). exists s', w. split; [now right|exact R].
      * intros (s' & w & [<-|Hi] & Hw & V & D); [|exists s', w; auto].
        exfalso. rewrite (ptarget_fun _ _ _ _ Hw (step_to_periodic _ _ Hv Us)) in *.
        rewrite V in E. simpl in E. lia.
Qed.

Lemma feature_edge_loop_eq lab fmap vac v ts :
  feature_edge_loop nx ny nz lab fmap vac (fmap (rd lab v)) v ts =
  edge_loop nx ny nz (fun i j k => fmap (lab i j k)) vac v ts.
Proof.
  induction ts as [|s t IH]; simpl; [reflexivity|]. rewrite IH.
  replace (rd (fun i j k => fmap (lab i j k)) (step_to v s)) with (fmap (rd lab (step_to v s)))
    by (destruct (step_to v s) as [[? ?] ?]; reflexivity).
  replace (rd (fun i j k => fmap (lab i j k)) v) with (fmap (rd lab v))
    by (destruct v as [[? ?] ?]; reflexivity).
  reflexivity.
Qed.

(** *** masks *)
Lemma flat_voxel_number v : Z.to_nat (flat ny nz v) = voxel_number ny nz v.
Proof.
  destruct v as [[i j] k]. unfold flat, voxel_number, coords_to_flat. f_equal. ring.
Qed.

Lemma voxel_number_lt v : in_grid v -> (voxel_number ny nz v < Z.to_nat (nx * ny * nz))%nat.
Proof.
  intro H. rewrite <- flat_voxel_number. destruct v as [[i j] k].
  pose proof (coords_flat_range i j k nx ny nz H). unfold flat. lia.
Qed.

Lemma unflat_voxel_number v : in_grid v -> unflat ny nz (Z.of_nat (voxel_number ny nz v)) = v.
Proof.
  intro H. rewrite <- flat_voxel_number. destruct v as [[i j] k].
  pose proof (coords_flat_range i j k nx ny nz H) as R.
  unfold flat, unflat. rewrite Z2Nat.id by lia. now apply (flat_coords_inverse _ _ _ nx).
Qed.

Lemma unflat_in_grid idx : (idx < Z.to_nat (nx * ny * nz))%nat ->
  in_grid (unflat ny nz (Z.of_nat idx)) /\ voxel_number ny nz (unflat ny nz (Z.of_nat idx)) = idx.
Proof.
  intro H. assert (R : 0 <= Z.of_nat idx < nx * ny * nz) by lia.
  pose proof (coords_flat_inverse (Z.of_nat idx) nx ny nz Hy Hz R) as P.
  unfold unflat in *. destruct (flat_to_coords (Z.of_nat idx) (ny * nz) nz) as [[i j] k].
  destruct P as [P1 P2]. split; [exact P1|]. rewrite <- flat_voxel_number. unfold flat.
  rewrite P2. lia.
Qed.

Lemma nth_repeat_false n i : nth i (repeat false n) false = false.
Proof. revert i; induction n as [|n IH]; intros [|i]; simpl; auto. Qed.

Lemma mask_loop_spec cell order v :
  covers nx ny nz order -> in_grid v ->
  nth (voxel_number ny nz v) (mask_loop nx ny nz cell order) false = cell v.
Proof.
  intros C Hv. unfold mask_loop. pose proof (voxel_number_lt v Hv) as L.
  rewrite par_loop_nth by now rewrite repeat_length.
  replace (existsb (Nat.eqb (voxel_number ny nz v)) order) with true.
  2:{ symmetry. apply existsb_exists. exists (voxel_number ny nz v). split; [now apply C|].
      apply Nat.eqb_refl. }
  rewrite unflat_voxel_number by exact Hv. rewrite nth_repeat_false.
  now destruct (cell v).
Qed.

Lemma mask_loop_length cell order :
  length (mask_loop nx ny nz cell order) = Z.to_nat (nx * ny * nz).
Proof. unfold mask_loop. now rewrite par_loop_length, repeat_length. Qed.

Theorem maxima_spec data ts vac order v :
  covers nx ny nz order -> in_grid v -> (forall s, In s ts -> unit_offset s) ->
  (nth (voxel_number ny nz v) (get_maxima nx ny nz data ts vac false order) false = true <->
   value_at vac v = false /\ locally_highest nx ny nz data ts v).
Proof.
  intros C Hv U. unfold get_maxima. rewrite mask_loop_spec by auto.
  unfold maxima_cell. change @rd with @value_at. destruct (value_at vac v).
  - split; [discriminate|]. intros [H _]. discriminate.
  - rewrite is_max_loop_spec by auto. tauto.
Qed.

Theorem minima_spec data ts vac order v :
  covers nx ny nz order -> in_grid v -> (forall s, In s ts -> unit_offset s) ->
  (nth (voxel_number ny nz v) (get_maxima nx ny nz data ts vac true order) false = true <->
   value_at vac v = false /\ locally_lowest nx ny nz data ts v).
Proof.
  intros C Hv U. unfold get_maxima. rewrite mask_loop_spec by auto.
  unfold maxima_cell. change @rd with @value_at. destruct (value_at vac v).
  - split; [discriminate|]. intros [H _]. discriminate.
  - rewrite is_min_loop_spec by auto. tauto.
Qed.

Theorem edges_spec lab ts vac order v :
  covers nx ny nz order -> in_grid v -> (forall s, In s ts -> unit_offset s) ->
  (nth (voxel_number ny nz v) (get_edges nx ny nz lab ts vac order) false = true <->
   value_at vac v = false /\
   exists s w, In s ts /\ ptarget v s w /\ value_at vac w = false /\ value_at lab w <> value_at lab v).
Proof.
  intros C Hv U. unfold get_edges. rewrite mask_loop_spec by auto.
  unfold edge_cell. change @rd with @value_at. destruct (value_at vac v).
  - split; [discriminate|]. intros [H _]. discriminate.
  - rewrite edge_loop_spec by auto. tauto.
Qed.

Theorem feature_edges_spec lab fmap ts vac order v :
  covers nx ny nz order -> in_grid v -> (forall s, In s ts -> unit_offset s) ->
  (nth (voxel_number ny nz v) (get_feature_edges nx ny nz lab fmap ts vac order) false = true <->
   value_at vac v = false /\
   exists s w, In s ts /\ ptarget v s w /\ value_at vac w = false /\
               fmap (value_at lab w) <> fmap (value_at lab v)).
Proof.
  intros C Hv U. unfold get_feature_edges. rewrite mask_loop_spec by auto.
  unfold feature_edge_cell. rewrite feature_edge_loop_eq. change @rd with @value_at. destruct (value_at vac v).
  - split; [discriminate|]. intros [H _]. discriminate.
  - rewrite edge_loop_spec by auto.
    assert (E : forall u, value_at (fun i j k => fmap (lab i j k)) u = fmap (value_at lab u))
      by (intros [[? ?] ?]; reflexivity).
    setoid_rewrite E. tauto.
Qed.

(** *** existence of a maximum *)
Lemma max_over_list {A} (f : A -> Q) l : l <> [] -> exists x, In x l /\ forall y, In y l -> (f y <= f x)%Q.
Proof.
  induction l as [|a t IH]; intros H; [congruence|].
  destruct t as [|b t'].
  - exists a. split; [now left|]. intros y [<-|[]]. apply Qle_refl.
  - destruct (IH ltac:(discriminate)) as (x & Hx1 & Hx2).
    destruct (Qlt_le_dec (f x) (f a)) as [L|L].
    + exists a. split; [now left|]. intros y [<-|Hy']; [apply Qle_refl|].
      specialize (Hx2 y Hy'). lra.
    + exists x. split; [now right|]. intros y [<-|Hy']; auto.
Qed.

Lemma maximum_exists (data : arr3 Q) (ts : list offset) (vac : arr3 bool) :
  (exists v, in_grid v /\ value_at vac v = false) ->
  (forall v w, in_grid v -> in_grid w -> value_at vac w = true -> value_at vac v = false ->
     (value_at data w <= value_at data v)%Q) ->
  exists v, in_grid v /\ value_at vac v = false /\ locally_highest nx ny nz data ts v.
Proof.
  intros (v0 & Hv0 & Hvac0) Hsub.
  set (l := filter (fun v => negb (value_at vac v)) (voxels nx ny nz)).
  assert (Hl : In v0 l).
  { apply filter_In. split; [now apply in_voxels|]. now rewrite Hvac0. }
  destruct (max_over_list (value_at data) l) as (x & Hx1 & Hx2).
  { intros E. rewrite E in Hl. contradiction. }
  apply filter_In in Hx1 as [G V]. apply in_voxels in G. apply negb_true_iff in V.
  exists x. repeat split; auto. intros s w _ Hw.
  pose proof (ptarget_in_grid _ _ _ Hw) as Gw.
  destruct (value_at vac w) eqn:Ew.
  - now apply Hsub.
  - apply Hx2. apply filter_In. split; [now apply in_voxels|]. now rewrite Ew.
Qed.
End Proofs.
