(** Proofs about coordinates and neighbour lists. *)
From Verif Require Import Base GridModel ChargeModel NearModel SurfaceModel RefineModel CoordModel NearSpec NearProofs InterpProofs RefineProofs.
From Coq Require Import Qround.
Local Open Scope Z_scope.

Definition veq (a b : vec) : Prop :=
  let '(x, y, z) := a in let '(x', y', z') := b in (x == x' /\ y == y' /\ z == z')%Q.
Lemma veq_refl a : veq a a.
Proof. destruct a as [[x y] z]. repeat split; reflexivity. Qed.
Lemma Forall2_map_l {A B C} (f : A -> B) (P : B -> C -> Prop) l l' : Forall2 (fun a c => P (f a) c) l l' -> Forall2 P (map f l) l'.
Proof. induction 1; cbn; constructor; auto. Qed.
Lemma Forall2_id {A B} (P : B -> A -> Prop) (f : A -> B) l : (forall a, P (f a) a) -> Forall2 P (map f l) l.
Proof. intros H. induction l; cbn; constructor; auto. Qed.

(** ** Conversions *)
Lemma inv_exists m : ~ (det3 m == 0)%Q -> exists i, np_inv m = Some i /\
  forall v, veq (vmat (vmat v m) i) v /\ veq (vmat (vmat v i) m) v.
Proof.
  destruct m as [[[[a b] c] [[d e] f]] [[g h] i]]. intros D. cbn [np_inv].
  destruct (Qeq_bool _ 0) eqn:E; [apply Qeq_bool_iff in E; contradiction|].
  eexists. split; [reflexivity|]. intros [[x y] z].
  cbn [vmat veq]. unfold det3 in *. repeat split; field; exact D.
Qed.
Lemma singular m : (det3 m == 0)%Q -> np_inv m = None.
Proof.
  destruct m as [[[[a b] c] [[d e] f]] [[g h] i]]. intros D. cbn [np_inv].
  apply Qeq_bool_iff in D. rewrite D. reflexivity.
Qed.
Lemma over_times nx ny nz v : 0 < nx -> 0 < ny -> 0 < nz ->
  veq (times_shape nx ny nz (over_shape nx ny nz v)) v /\ veq (over_shape nx ny nz (times_shape nx ny nz v)) v.
Proof.
  intros A B C. destruct v as [[x y] z]. cbn.
  assert (E : forall n, 0 < n -> ~ (inject_Z n == 0)%Q) by (intros n H F; apply (proj1 (inject_Z_injective n 0)) in F; lia).
  repeat split; field; auto.
Qed.
Lemma vmat_comp v w m : veq v w -> veq (vmat v m) (vmat w m).
Proof.
  destruct v as [[x y] z], w as [[x' y'] z'], m as [[[[a b] c] [[d e] f]] [[g h] i]]. cbn.
  intros (E1 & E2 & E3). rewrite E1, E2, E3. repeat split; reflexivity.
Qed.
Lemma over_comp nx ny nz v w : veq v w -> veq (over_shape nx ny nz v) (over_shape nx ny nz w).
Proof. destruct v as [[x y] z], w as [[x' y'] z']. cbn. intros (E1 & E2 & E3). rewrite E1, E2, E3. repeat split; reflexivity. Qed.
Lemma times_comp nx ny nz v w : veq v w -> veq (times_shape nx ny nz v) (times_shape nx ny nz w).
Proof. destruct v as [[x y] z], w as [[x' y'] z']. cbn. intros (E1 & E2 & E3). rewrite E1, E2, E3. repeat split; reflexivity. Qed.
Lemma veq_trans a b c : veq a b -> veq b c -> veq a c.
Proof. destruct a as [[? ?] ?], b as [[? ?] ?], c as [[? ?] ?]. cbn. intros (E1 & E2 & E3) (F1 & F2 & F3). rewrite E1, E2, E3. auto. Qed.
Lemma norm2_comp a b : veq a b -> (norm2 a == norm2 b)%Q.
Proof. destruct a as [[? ?] ?], b as [[? ?] ?]. cbn. intros (E1 & E2 & E3). rewrite E1, E2, E3. reflexivity. Qed.

Lemma round_trips nx ny nz m : 0 < nx -> 0 < ny -> 0 < nz -> ~ (det3 m == 0)%Q -> forall l,
  (exists f, cart_to_frac m (frac_to_cart m l) = Some f /\ Forall2 veq f l) /\
  (exists f, cart_to_frac m l = Some f /\ Forall2 veq (frac_to_cart m f) l) /\
  Forall2 veq (frac_to_grid nx ny nz (grid_to_frac nx ny nz l)) l /\
  Forall2 veq (grid_to_frac nx ny nz (frac_to_grid nx ny nz l)) l /\
  (exists g, cart_to_grid nx ny nz m (grid_to_cart nx ny nz m l) = Some g /\ Forall2 veq g l) /\
  (exists g, cart_to_grid nx ny nz m l = Some g /\ Forall2 veq (grid_to_cart nx ny nz m g) l).
Proof.
  intros A B C D l. destruct (inv_exists m D) as (i & E & H).
  unfold cart_to_grid, cart_to_frac, frac_to_cart, frac_to_grid, grid_to_cart, grid_to_frac, frac_to_cart. rewrite E. cbn [option_map].
  pose proof (fun v => over_times nx ny nz v A B C) as H2.
  split; [|split; [|split; [|split; [|split]]]].
  - eexists. split; [reflexivity|]. rewrite map_map. apply Forall2_id. intros v. apply H.
  - eexists. split; [reflexivity|]. rewrite map_map. apply Forall2_id. intros v. apply H.
  - rewrite map_map. apply Forall2_id. intros v. apply H2.
  - rewrite map_map. apply Forall2_id. intros v. apply H2.
  - eexists. split; [reflexivity|]. rewrite !map_map. apply Forall2_id. intros v.
    eapply veq_trans; [apply times_comp, H|apply H2].
  - eexists. split; [reflexivity|]. rewrite !map_map. apply Forall2_id. intros v.
    eapply veq_trans; [apply vmat_comp, H2|apply H].
Qed.

(** ** Neighbour lists *)
Definition neg3 (o : Z * Z * Z) : Z * Z * Z := let '(i, j, k) := o in (- i, - j, - k).
Lemma point_neighbors_spec i j k :
  In (i, j, k) point_neighbors <-> (-1 <= i <= 1 /\ -1 <= j <= 1 /\ -1 <= k <= 1) /\ (i, j, k) <> (0, 0, 0).
Proof.
  unfold point_neighbors. rewrite filter_In, unit3_spec, negb_true_iff. cbn [is_zero].
  split; intros [H1 H2]; split; try exact H1.
  - intros E. injection E as -> -> ->. discriminate.
  - destruct ((i =? 0) && (j =? 0) && (k =? 0)) eqn:E; [|reflexivity]. exfalso. apply H2.
    assert (i = 0 /\ j = 0 /\ k = 0) as (-> & -> & ->) by lia. reflexivity.
Qed.
Lemma unit3_nodup : NoDup unit3.
Proof. unfold unit3. cbv. repeat (constructor; [cbn; intuition congruence|]). constructor. Qed.
Lemma point_neighbors_nodup : NoDup point_neighbors.
Proof. apply NoDup_filter, unit3_nodup. Qed.
Definition true_dist nx ny nz (m : mat) (root : Q -> Q) (o : Z * Z * Z) : Q :=
  let '((a1, a2, a3), (b1, b2, b3), (c1, c2, c3)) := m in let '(i, j, k) := o in
  let f := (inject_Z i / inject_Z nx)%Q in let g := (inject_Z j / inject_Z ny)%Q in let h := (inject_Z k / inject_Z nz)%Q in
  root ((f * a1 + g * b1 + h * c1) * (f * a1 + g * b1 + h * c1) + (f * a2 + g * b2 + h * c2) * (f * a2 + g * b2 + h * c2) + (f * a3 + g * b3 + h * c3) * (f * a3 + g * b3 + h * c3))%Q.
Lemma dists_spec nx ny nz m root : point_neighbor_dists nx ny nz m root = map (true_dist nx ny nz m root) point_neighbors.
Proof.
  unfold point_neighbor_dists, grid_to_cart, frac_to_cart, grid_to_frac. rewrite !map_map. apply map_ext.
  intros [[i j] k]. destruct m as [[[[a b] c] [[d e] f]] [[g h] ii]]. reflexivity.
Qed.
Lemma true_dist_neg nx ny nz m root o : (forall p q, p == q -> root p == root q)%Q ->
  0 < nx -> 0 < ny -> 0 < nz -> (true_dist nx ny nz m root (neg3 o) == true_dist nx ny nz m root o)%Q.
Proof.
  intros R A B C. destruct o as [[i j] k], m as [[[[a b] c] [[d e] f]] [[g h] ii]]. cbn [neg3 true_dist]. apply R.
  rewrite !inject_Z_opp.
  assert (E : forall n, 0 < n -> ~ (inject_Z n == 0)%Q) by (intros n H F; apply (proj1 (inject_Z_injective n 0)) in F; lia).
  field. auto.
Qed.
Lemma combine_map_self {A B} (f : A -> B) l : combine l (map f l) = map (fun a => (a, f a)) l.
Proof. induction l; cbn; f_equal; auto. Qed.
Lemma face_spec nx ny nz m root :
  face_neighbors nx ny nz m root = map (fun o => (o, true_dist nx ny nz m root o)) [(-1, 0, 0); (0, -1, 0); (0, 0, -1); (0, 0, 1); (0, 1, 0); (1, 0, 0)].
Proof.
  unfold face_neighbors. rewrite dists_spec, combine_map_self. generalize (true_dist nx ny nz m root). intros f. reflexivity.
Qed.

Definition scale3 a b c (o : Z * Z * Z) : Z * Z * Z := let '(i, j, k) := o in (i * a, j * b, k * c).
Lemma images_scale a b c : images a b c = map (scale3 a b c) unit3.
Proof. cbv [images unit3 list_prod map app scale3]. repeat f_equal; lia. Qed.
Lemma filter_map {A B} (f : A -> B) p l : filter p (map f l) = map f (filter (fun x => p (f x)) l).
Proof. induction l as [|x l IH]; cbn; [reflexivity|]. rewrite IH. destruct (p (f x)); reflexivity. Qed.
Lemma nonpos_scale a b c o : 0 < a -> 0 < b -> 0 < c -> In o unit3 -> nonpos (scale3 a b c o) || nonneg3 (scale3 a b c o) = nonpos o || nonneg3 o.
Proof.
  destruct o as [[i j] k]. rewrite unit3_spec. cbn [scale3 nonpos nonneg3]. intros A B C ((? & ?) & (? & ?) & ? & ?).
  assert (E : forall n x, 0 < n -> (x * n <=? 0) = (x <=? 0) /\ (0 <=? x * n) = (0 <=? x)) by (intros n x Hn; nia).
  rewrite !(proj1 (E a i A)), !(proj2 (E a i A)), !(proj1 (E b j B)), !(proj2 (E b j B)), !(proj1 (E c k C)), !(proj2 (E c k C)). reflexivity.
Qed.
Lemma off_eqb_spec o p : off_eqb o p = true <-> o = p.
Proof.
  destruct o as [[i j] k], p as [[i' j'] k']. cbn. split; [intros H|intros [= -> -> ->]; lia].
  assert (i = i' /\ j = j' /\ k = k') as (-> & -> & ->) by lia. reflexivity.
Qed.
Lemma scale3_inj a b c o p : 0 < a -> 0 < b -> 0 < c -> scale3 a b c o = scale3 a b c p -> o = p.
Proof. destruct o as [[i j] k], p as [[i' j'] k']. cbn. intros A B C [= E1 E2 E3]. assert (i = i') by nia. assert (j = j') by nia. assert (k = k') by nia. congruence. Qed.
Lemma existsb_scale a b c o l : 0 < a -> 0 < b -> 0 < c -> existsb (off_eqb (scale3 a b c o)) (map (scale3 a b c) l) = existsb (off_eqb o) l.
Proof.
  intros A B C. apply eq_true_iff_eq. rewrite !existsb_exists. split.
  - intros (x & H & E). apply in_map_iff in H as (y & <- & H). apply off_eqb_spec, (scale3_inj a b c) in E; auto. subst. exists y. split; [exact H|now apply off_eqb_spec].
  - intros (x & H & E). apply off_eqb_spec in E. subst. exists (scale3 a b c x). split; [now apply in_map|now apply off_eqb_spec].
Qed.
Lemma first_scale a b c : 0 < a -> 0 < b -> 0 < c -> first_pass a b c = map (scale3 a b c) (first_pass 1 1 1).
Proof.
  intros A B C. unfold first_pass. rewrite !images_scale, !filter_map, map_map.
  rewrite (filter_ext_in _ (fun o => nonpos o || nonneg3 o) unit3) by (intros o H; now apply nonpos_scale).
  rewrite (filter_ext_in (fun x => nonpos (scale3 1 1 1 x) || nonneg3 (scale3 1 1 1 x)) (fun o => nonpos o || nonneg3 o) unit3) by (intros o H; apply nonpos_scale; lia || auto).
  apply map_ext. intros [[i j] k]. cbn. rewrite !Z.mul_1_r. reflexivity.
Qed.
Lemma second_scale a b c : 0 < a -> 0 < b -> 0 < c -> second_pass a b c = map (scale3 a b c) (second_pass 1 1 1).
Proof.
  intros A B C. unfold second_pass. rewrite (first_scale a b c), !images_scale by assumption.
  assert (U : map (scale3 1 1 1) unit3 = unit3) by reflexivity. rewrite U. clear U.
  generalize (first_pass 1 1 1). induction unit3 as [|o l IH]; intros acc; [reflexivity|].
  cbn [map fold_left]. rewrite existsb_scale by assumption.
  destruct (existsb (off_eqb o) acc); [apply IH|]. rewrite <- IH, map_app. reflexivity.
Qed.
Lemma pop_map {A B} (f : A -> B) i l : pop_to_front i (map f l) = option_map (map f) (pop_to_front i l).
Proof.
  unfold pop_to_front. rewrite nth_error_map. destruct (nth_error l i); [|reflexivity]. cbn [option_map map].
  now rewrite map_app, firstn_map, skipn_map.
Qed.
Definition sorted_unit3 : list (Z * Z * Z) := match grid_neighbor_transforms 1 1 1 with Some l => l | None => [] end.
Fixpoint remove_first (o : Z * Z * Z) (l : list (Z * Z * Z)) : list (Z * Z * Z) :=
  match l with [] => [] | x :: t => if off_eqb o x then t else x :: remove_first o t end.
Lemma remove_first_perm o l : existsb (off_eqb o) l = true -> Permutation l (o :: remove_first o l).
Proof.
  induction l as [|x l IH]; cbn; [discriminate|]. destruct (off_eqb o x) eqn:E.
  - apply off_eqb_spec in E. subst. reflexivity.
  - cbn. intros H. rewrite IH at 1 by exact H. apply perm_swap.
Qed.
Fixpoint perm_check (l l' : list (Z * Z * Z)) : bool :=
  match l with [] => match l' with [] => true | _ => false end | o :: t => existsb (off_eqb o) l' && perm_check t (remove_first o l') end.
Lemma perm_check_sound l : forall l', perm_check l l' = true -> Permutation l l'.
Proof.
  induction l as [|o l IH]; cbn; intros l' H.
  - destruct l'; [constructor|discriminate].
  - apply andb_prop in H as [H1 H2]. rewrite (remove_first_perm o l' H1). constructor. auto.
Qed.
Lemma sorted_unit3_perm : Permutation sorted_unit3 unit3.
Proof. apply perm_check_sound. vm_compute. reflexivity. Qed.
Lemma transforms_spec a b c : 0 < a -> 0 < b -> 0 < c -> exists l, grid_neighbor_transforms a b c = Some ((0, 0, 0) :: l) /\
  Permutation ((0, 0, 0) :: l) (map (scale3 a b c) unit3).
Proof.
  intros A B C. unfold grid_neighbor_transforms. rewrite second_scale, pop_map by assumption.
  change (pop_to_front 7 (second_pass 1 1 1)) with (grid_neighbor_transforms 1 1 1).
  destruct (grid_neighbor_transforms 1 1 1) as [[|x l]|] eqn:E; [vm_compute in E; discriminate| |vm_compute in E; discriminate].
  assert (X : x = (0, 0, 0)). { vm_compute in E. congruence. }
  subst x. exists (map (scale3 a b c) l). split; [reflexivity|].
  change ((0, 0, 0) :: map (scale3 a b c) l) with (map (scale3 a b c) ((0, 0, 0) :: l)).
  apply Permutation_map. pose proof sorted_unit3_perm as P. unfold sorted_unit3 in P. now rewrite E in P.
Qed.
Lemma transforms_prefix a b c : 0 < a -> 0 < b -> 0 < c -> forall l, grid_neighbor_transforms a b c = Some l ->
  Forall (fun o => nonpos o || nonneg3 o = true) (firstn 15 l) /\ Forall (fun o => nonpos o || nonneg3 o = false) (skipn 15 l).
Proof.
  intros A B C l. unfold grid_neighbor_transforms. rewrite second_scale, pop_map by assumption.
  change (pop_to_front 7 (second_pass 1 1 1)) with (grid_neighbor_transforms 1 1 1).
  destruct (grid_neighbor_transforms 1 1 1) as [u|] eqn:E; [|discriminate]. intros [= <-].
  rewrite firstn_map, skipn_map.
  assert (I : forall o, In o u -> In o unit3). { intros o H. apply (Permutation_in _ sorted_unit3_perm). unfold sorted_unit3. now rewrite E. }
  assert (T : forallb (fun o => nonpos o || nonneg3 o) (firstn 15 sorted_unit3) = true /\ forallb (fun o => negb (nonpos o || nonneg3 o)) (skipn 15 sorted_unit3) = true) by (vm_compute; auto).
  unfold sorted_unit3 in T. rewrite E in T. destruct T as [T1 T2]. rewrite forallb_forall in T1, T2.
  split; apply Forall_forall; intros o H; apply in_map_iff in H as (p & <- & H).
  - rewrite nonpos_scale; auto. apply I. rewrite <- (firstn_skipn 15 u). apply in_or_app. now left.
  - rewrite nonpos_scale; auto. now apply negb_true_iff, T2. apply I. rewrite <- (firstn_skipn 15 u). apply in_or_app. now right.
Qed.

(** ** Boxes *)
Lemma arange_nth lo hi t : 0 <= t < hi - lo -> nth_error (arange lo hi) (Z.to_nat t) = Some (lo + t).
Proof.
  intros H. unfold arange, zrange. rewrite !nth_error_map.
  rewrite (nth_error_nth' _ 0%nat) by (rewrite seq_length; lia). cbn. rewrite seq_nth by lia. cbn. f_equal. lia.
Qed.
Lemma arange_length lo hi : length (arange lo hi) = Z.to_nat (hi - lo).
Proof. unfold arange. now rewrite map_length, zrange_length. Qed.
Lemma in_arange lo hi i : In i (arange lo hi) <-> lo <= i < hi.
Proof.
  unfold arange. rewrite in_map_iff. split.
  - intros (t & <- & H). apply in_zrange in H. lia.
  - intros H. exists (i - lo). split; [lia|]. apply in_zrange. lia.
Qed.
Lemma arange_nodup lo hi : NoDup (arange lo hi).
Proof. unfold arange. apply FinFun.Injective_map_NoDup; [intros a b E; lia|apply zrange_NoDup]. Qed.
Lemma slice_nth {A} nx ny nz (total : arr3 A) a b c s (x y z : Z) : 0 <= x < s + 2 -> 0 <= y < s + 2 -> 0 <= z < s + 2 ->
  exists r col, nth_error (cubic_slice nx ny nz total (a, b, c) s) (Z.to_nat x) = Some r /\ nth_error r (Z.to_nat y) = Some col /\
    nth_error col (Z.to_nat z) = Some (total ((a - s + x) mod nx) ((b - s + y) mod ny) ((c - s + z) mod nz)).
Proof.
  intros X Y Z'. unfold cubic_slice, slice_axis.
  assert (E : forall {B} (f : Z -> B) lo t n, 0 <= t < s + 2 -> nth_error (map f (map (fun i => i mod n) (arange (lo - s) (lo + 2)))) (Z.to_nat t) = Some (f ((lo - s + t) mod n))).
  { intros B f lo t n H. rewrite map_map. erewrite map_nth_error; [reflexivity|]. apply arange_nth. lia. }
  do 2 eexists. split; [apply E; exact X|]. split; [apply E; exact Y|]. apply E. exact Z'.
Qed.
Lemma slice_length {A} nx ny nz (total : arr3 A) p s : 0 <= s ->
  length (cubic_slice nx ny nz total p s) = Z.to_nat (s + 2) /\ Forall (fun r => length r = Z.to_nat (s + 2) /\ Forall (fun col => length col = Z.to_nat (s + 2)) r) (cubic_slice nx ny nz total p s).
Proof.
  intros S. destruct p as [[a b] c]. unfold cubic_slice, slice_axis. rewrite !map_length, arange_length.
  split; [f_equal; lia|]. apply Forall_forall. intros r H. apply in_map_iff in H as (i & <- & _).
  rewrite !map_length, arange_length. split; [f_equal; lia|]. apply Forall_forall. intros col H. apply in_map_iff in H as (j & <- & _).
  rewrite !map_length, arange_length. f_equal; lia.
Qed.

(** ** The largest distance inside a voxel *)
Section MaxDist.
Variables nx ny nz : Z.
Variable m : mat.
Variable root : Q -> Q.
Hypothesis N : 0 < nx /\ 0 < ny /\ 0 < nz.
Hypothesis MONO : forall p q, (p <= q)%Q -> (root p <= root q)%Q.
(** The point of the voxel with offsets [s], [t], [u] (in voxel edges) from its centre. *)
Definition voxel_point (s t u : Q) : vec := vmat (s / inject_Z nx, t / inject_Z ny, u / inject_Z nz)%Q m.
Lemma root_eq p q : (p == q)%Q -> (root p == root q)%Q.
Proof. intros E. apply Qle_antisym; apply MONO; rewrite E; apply Qle_refl. Qed.
Let V (s t u : Q) : Q := norm2 (voxel_point s t u).
Lemma V_neg s t u : (V (- s) (- t) (- u) == V s t u)%Q.
Proof.
  unfold V, voxel_point. destruct m as [[[[a b] c] [[d e] f]] [[g h] i]]. cbn. destruct N as (N1 & N2 & N3).
  assert (E : forall n, 0 < n -> ~ (inject_Z n == 0)%Q) by (intros n H F; apply (proj1 (inject_Z_injective n 0)) in F; lia).
  field. auto.
Qed.
Definition corners : list (Q * Q * Q) := let h := [(-(1#2)); 1#2]%Q in list_prod (list_prod h h) h.
Lemma vertices_V : Forall2 (fun v c => (norm2 v == V (fst (fst c)) (snd (fst c)) (snd c))%Q)
  (vox_vertices nx ny nz m)
  ([(0, 0, 0); (-(1#2), -(1#2), -(1#2)); (1#2, -(1#2), -(1#2)); (-(1#2), 1#2, -(1#2)); (-(1#2), -(1#2), 1#2);
    (1#2, 1#2, -(1#2)); (-(1#2), 1#2, 1#2); (1#2, -(1#2), 1#2); (-(1#2), -(1#2), -(1#2))]%Q).
Proof.
  unfold V, voxel_point. destruct m as [[[[a b] c] [[d e] f]] [[g h] i]]. destruct N as (N1 & N2 & N3).
  assert (E : forall n, 0 < n -> ~ (inject_Z n == 0)%Q) by (intros n H F; apply (proj1 (inject_Z_injective n 0)) in F; lia).
  pose proof (E _ N1) as E1. pose proof (E _ N2) as E2. pose proof (E _ N3) as E3.
  cbn [vox_vertices map]. revert E1 E2 E3. generalize (inject_Z nx) (inject_Z ny) (inject_Z nz). intros x y z E1 E2 E3.
  repeat (constructor; [apply norm2_comp; cbn; repeat split; field; auto|]). constructor.
Qed.
(** The square of the distance along a line is at most the larger of its values at both ends. *)
Lemma line_max (x u : vec) t : (-(1#2) <= t <= 1#2)%Q ->
  let at_ q := norm2 (vadd x (vmap (fun w => (q * w)%Q) u)) in (at_ t <= at_ (1#2) \/ at_ t <= at_ (-(1#2)))%Q.
Proof.
  intros T. destruct x as [[x y] z], u as [[u v] w]. cbn.
  set (p := (x * u + y * v + z * w)%Q). set (n := (u * u + v * v + w * w)%Q).
  assert (Hn : (0 <= n)%Q) by (unfold n; nra).
  assert (E : forall q, ((x + q * u) * (x + q * u) + (y + q * v) * (y + q * v) + (z + q * w) * (z + q * w) == x * x + y * y + z * z + 2 * q * p + q * q * n)%Q) by (intros q; unfold p, n; ring).
  rewrite !E. assert (TT : (t * t * n <= (1#4) * n)%Q) by (apply Qmult_le_compat_r; [nra|exact Hn]).
  destruct (Qlt_le_dec p 0) as [L|L]; [right|left].
  - assert ((2 * t * p <= 2 * (-(1#2)) * p)%Q) by nra. lra.
  - assert ((2 * t * p <= 2 * (1#2) * p)%Q) by nra. lra.
Qed.
Lemma V_line1 s t u : (-(1#2) <= s <= 1#2)%Q -> (V s t u <= V (1#2) t u \/ V s t u <= V (-(1#2)) t u)%Q.
Proof.
  intros T. unfold V, voxel_point. destruct m as [[[[a b] c] [[d e] f]] [[g h] i]]. destruct N as (N1 & N2 & N3).
  assert (E : forall n, 0 < n -> ~ (inject_Z n == 0)%Q) by (intros n H F; apply (proj1 (inject_Z_injective n 0)) in F; lia).
  pose proof (line_max (vmat (0, t / inject_Z ny, u / inject_Z nz)%Q ((a, b, c), (d, e, f), (g, h, i))) (a / inject_Z nx, b / inject_Z nx, c / inject_Z nx)%Q s T) as L. cbv zeta in L.
  assert (Eq : forall q, (norm2 (vadd (vmat (0, t / inject_Z ny, u / inject_Z nz)%Q ((a, b, c), (d, e, f), (g, h, i))) (vmap (fun w => (q * w)%Q) (a / inject_Z nx, b / inject_Z nx, c / inject_Z nx)%Q)) == norm2 (vmat (q / inject_Z nx, t / inject_Z ny, u / inject_Z nz)%Q ((a, b, c), (d, e, f), (g, h, i))))%Q).
  { intros q. apply norm2_comp. cbn. repeat split; field; auto. }
  rewrite !Eq in L. exact L.
Qed.
Lemma V_line2 s t u : (-(1#2) <= t <= 1#2)%Q -> (V s t u <= V s (1#2) u \/ V s t u <= V s (-(1#2)) u)%Q.
Proof.
  intros T. unfold V, voxel_point. destruct m as [[[[a b] c] [[d e] f]] [[g h] i]]. destruct N as (N1 & N2 & N3).
  assert (E : forall n, 0 < n -> ~ (inject_Z n == 0)%Q) by (intros n H F; apply (proj1 (inject_Z_injective n 0)) in F; lia).
  pose proof (line_max (vmat (s / inject_Z nx, 0, u / inject_Z nz)%Q ((a, b, c), (d, e, f), (g, h, i))) (d / inject_Z ny, e / inject_Z ny, f / inject_Z ny)%Q t T) as L. cbv zeta in L.
  assert (Eq : forall q, (norm2 (vadd (vmat (s / inject_Z nx, 0, u / inject_Z nz)%Q ((a, b, c), (d, e, f), (g, h, i))) (vmap (fun w => (q * w)%Q) (d / inject_Z ny, e / inject_Z ny, f / inject_Z ny)%Q)) == norm2 (vmat (s / inject_Z nx, q / inject_Z ny, u / inject_Z nz)%Q ((a, b, c), (d, e, f), (g, h, i))))%Q).
  { intros q. apply norm2_comp. cbn. repeat split; field; auto. }
  rewrite !Eq in L. exact L.
Qed.
Lemma V_line3 s t u : (-(1#2) <= u <= 1#2)%Q -> (V s t u <= V s t (1#2) \/ V s t u <= V s t (-(1#2)))%Q.
Proof.
  intros T. unfold V, voxel_point. destruct m as [[[[a b] c] [[d e] f]] [[g h] i]]. destruct N as (N1 & N2 & N3).
  assert (E : forall n, 0 < n -> ~ (inject_Z n == 0)%Q) by (intros n H F; apply (proj1 (inject_Z_injective n 0)) in F; lia).
  pose proof (line_max (vmat (s / inject_Z nx, t / inject_Z ny, 0)%Q ((a, b, c), (d, e, f), (g, h, i))) (g / inject_Z nz, h / inject_Z nz, i / inject_Z nz)%Q u T) as L. cbv zeta in L.
  assert (Eq : forall q, (norm2 (vadd (vmat (s / inject_Z nx, t / inject_Z ny, 0)%Q ((a, b, c), (d, e, f), (g, h, i))) (vmap (fun w => (q * w)%Q) (g / inject_Z nz, h / inject_Z nz, i / inject_Z nz)%Q)) == norm2 (vmat (s / inject_Z nx, t / inject_Z ny, q / inject_Z nz)%Q ((a, b, c), (d, e, f), (g, h, i))))%Q).
  { intros q. apply norm2_comp. cbn. repeat split; field; auto. }
  rewrite !Eq in L. exact L.
Qed.
Lemma max_is_vertex : (forall v, In v (vox_vertices nx ny nz m) -> (root (norm2 v) <= max_point_dist nx ny nz m root)%Q) /\
  exists v, In v (vox_vertices nx ny nz m) /\ max_point_dist nx ny nz m root = root (norm2 v).
Proof.
  clear MONO. unfold max_point_dist. destruct (vox_vertices nx ny nz m) as [|x l] eqn:E.
  - exfalso. destruct m as [[a b] c]. discriminate.
  - cbn [map]. destruct (fold_qmax (map (fun v => root (norm2 v)) l) (root (norm2 x))) as (A & B & C). split.
    + intros v [<-|H]; [exact A|]. apply B. apply in_map_iff. eauto.
    + destruct C as [C|C]; [exists x; split; [now left|exact C]|]. apply in_map_iff in C as (v & C & H). exists v. split; [now right|now symmetry].
Qed.
Lemma corner_le s t u : In (s, t, u) corners -> (root (V s t u) <= max_point_dist nx ny nz m root)%Q.
Proof.
  intros H. destruct max_is_vertex as [M _]. pose proof vertices_V as F.
  assert (K : forall c, In c [(0, 0, 0); (-(1#2), -(1#2), -(1#2)); (1#2, -(1#2), -(1#2)); (-(1#2), 1#2, -(1#2)); (-(1#2), -(1#2), 1#2);
    (1#2, 1#2, -(1#2)); (-(1#2), 1#2, 1#2); (1#2, -(1#2), 1#2); (-(1#2), -(1#2), -(1#2))]%Q -> (root (V (fst (fst c)) (snd (fst c)) (snd c)) <= max_point_dist nx ny nz m root)%Q).
  { intros c Hc. revert F M. generalize (vox_vertices nx ny nz m). revert Hc. generalize ([(0, 0, 0); (-(1#2), -(1#2), -(1#2)); (1#2, -(1#2), -(1#2)); (-(1#2), 1#2, -(1#2)); (-(1#2), -(1#2), 1#2);
    (1#2, 1#2, -(1#2)); (-(1#2), 1#2, 1#2); (1#2, -(1#2), 1#2); (-(1#2), -(1#2), -(1#2))]%Q). intros l Hc vs F M.
    induction F as [|v c' vs l E F IH]; [contradiction|]. destruct Hc as [->|Hc].
    - rewrite <- (root_eq _ _ E). apply M. now left.
    - apply IH; [exact Hc|]. intros w Hw. apply M. now right. }
  cbn in H. repeat destruct H as [H|H]; try contradiction; injection H as <- <- <-.
  all: try (match goal with |- (root (V ?a ?b ?c) <= _)%Q => apply (K (a, b, c)); cbn; tauto end).
  rewrite (root_eq (V (1#2) (1#2) (1#2)) (V (-(1#2)) (-(1#2)) (-(1#2)))) by (symmetry; apply (V_neg (1#2) (1#2) (1#2))).
  apply (K (-(1#2), -(1#2), -(1#2))%Q). cbn. tauto.
Qed.
Lemma max_bounds s t u : (-(1#2) <= s <= 1#2 -> -(1#2) <= t <= 1#2 -> -(1#2) <= u <= 1#2 -> root (norm2 (voxel_point s t u)) <= max_point_dist nx ny nz m root)%Q.
Proof.
  intros S T U. fold (V s t u).
  assert (X : exists s' t' u', In (s', t', u') corners /\ (V s t u <= V s' t' u')%Q).
  { assert (X1 : exists s', (s' = (1#2) \/ s' = (-(1#2)))%Q /\ (V s t u <= V s' t u)%Q) by (destruct (V_line1 s t u S); eauto).
    destruct X1 as (s' & Hs & X1).
    assert (X2 : exists t', (t' = (1#2) \/ t' = (-(1#2)))%Q /\ (V s' t u <= V s' t' u)%Q) by (destruct (V_line2 s' t u T); eauto).
    destruct X2 as (t' & Ht & X2).
    assert (X3 : exists u', (u' = (1#2) \/ u' = (-(1#2)))%Q /\ (V s' t' u <= V s' t' u')%Q) by (destruct (V_line3 s' t' u U); eauto).
    destruct X3 as (u' & Hu & X3). exists s', t', u'. split; [|lra].
    destruct Hs as [-> | ->], Ht as [-> | ->], Hu as [-> | ->]; cbn; tauto. }
  destruct X as (s' & t' & u' & H & L). pose proof (corner_le _ _ _ H). pose proof (MONO _ _ L). lra.
Qed.
Lemma max_attained : exists s t u, In (s, t, u) corners /\ (max_point_dist nx ny nz m root == root (norm2 (voxel_point s t u)))%Q.
Proof.
  destruct max_is_vertex as [_ (v & H & E)]. rewrite E. pose proof vertices_V as F.
  assert (K : exists c, In c [(0, 0, 0); (-(1#2), -(1#2), -(1#2)); (1#2, -(1#2), -(1#2)); (-(1#2), 1#2, -(1#2)); (-(1#2), -(1#2), 1#2);
    (1#2, 1#2, -(1#2)); (-(1#2), 1#2, 1#2); (1#2, -(1#2), 1#2); (-(1#2), -(1#2), -(1#2))]%Q /\ (norm2 v == V (fst (fst c)) (snd (fst c)) (snd c))%Q).
  { revert H. clear E. induction F as [|w c vs l E F IH]; [contradiction|]. intros [->|H]; [exists c; split; [now left|exact E]|].
    destruct (IH H) as (c' & H1 & H2). exists c'. split; [now right|exact H2]. }
  destruct K as (c & H1 & H2). destruct H1 as [<-|H1].
  - (* the centre: it is not further away than any corner *)
    exists (-(1#2))%Q, (-(1#2))%Q, (-(1#2))%Q. split; [cbn; tauto|]. apply Qle_antisym.
    + apply MONO. rewrite H2. cbn [fst snd]. fold (V (-(1#2)) (-(1#2)) (-(1#2))).
      assert (Z0 : (V 0 0 0 == 0)%Q). { unfold V, voxel_point. destruct m as [[[[a b] c] [[d e] f]] [[g h] i]]. cbn. unfold Qdiv. ring. }
      rewrite Z0. unfold V. destruct (voxel_point _ _ _) as [[x y] z]. cbn. nra.
    + rewrite <- E. apply corner_le. cbn. tauto.
  - exists (fst (fst c)), (snd (fst c)), (snd c). split; [|now apply root_eq].
    cbn in H1. repeat destruct H1 as [<-|H1]; try contradiction; cbn; tauto.
Qed.
End MaxDist.
