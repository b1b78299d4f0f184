(** Proofs about [GobjModel]. *)
From Coq Require Import QArith Qround Qabs Lqa.
From Verif Require Import Base GridModel ChargeModel NearModel RefineModel PlaneModel CoordModel CoordProofs GobjModel.
Local Open Scope Z_scope.

Lemma key_eqb_spec a b : key_eqb a b = true <-> a = b.
Proof. destruct a, b; cbn; split; congruence. Qed.
Lemma lookup_assign {A} k k' (v : A) d : lookup k (assign k' v d) = if key_eqb k k' then Some v else lookup k d.
Proof.
  induction d as [|[h w] d IH]; cbn [assign lookup].
  - cbn [lookup]. destruct (key_eqb k k'); reflexivity.
  - destruct (key_eqb k' h) eqn:E; cbn [lookup].
    + apply key_eqb_spec in E. subst h. destruct (key_eqb k k'); reflexivity.
    + destruct (key_eqb k h) eqn:F; [|exact IH]. apply key_eqb_spec in F. subst h. destruct (key_eqb k k') eqn:G; [|reflexivity]. apply key_eqb_spec in G. subst k'. rewrite (proj2 (key_eqb_spec k k) eq_refl) in E. discriminate.
Qed.
Lemma shape_eqb_spec s t : shape_eqb s t = true <-> s = t.
Proof. destruct s as [[x y] z], t as [[x' y'] z']. cbn. rewrite !andb_true_iff, !Z.eqb_eq. split; [intros [[-> ->] ->]; reflexivity|]. intros E. injection E as -> -> ->. auto. Qed.

Section Proofs.
Variable spline : arr -> arr.
Variable zoom : (Z * Z * Z) -> arr -> arr.
Variable root : Q -> Q.
Notation step := (step spline zoom root).
Notation run := (run spline zoom root).
Notation dists_of := (dists_of root).
Notation far_of := (far_of root).
Notation neigh_of := (neigh_of root).

Definition agrees {A} (c : option A) (v : A) : Prop := c = None \/ c = Some v.
(** Every value stored by a resettable cache is the one of the current data. *)
Definition fresh (g : grid) : Prop :=
  agrees (g_indices g) (indices_of (shape g)) /\ agrees (g_flat g) (flat_of (shape g)) /\ agrees (g_dists g) (dists_of (g_matrix g) (shape g)) /\
  agrees (g_far g) (far_of (g_matrix g) (shape g)) /\ agrees (g_images g) (images_of (shape g)).

Lemma fresh_reset g : fresh (reset_cache g).
Proof. repeat split; now left. Qed.
Lemma fresh_make m d a f t g : make_grid m d a f t = Some g -> fresh g.
Proof. unfold make_grid. destruct (lookup Total d); [|discriminate]. intros E. injection E as <-. repeat split; now left. Qed.
Lemma fresh_or o g : (forall g', o = Some g' -> fresh g') -> fresh g -> fresh (or_same o g).
Proof. destruct o as [g'|]; cbn; auto. Qed.

Lemma read_indices_spec g : fresh g -> fst (read_indices g) = indices_of (shape g) /\ fresh (snd (read_indices g)).
Proof.
  intros (A & B & C & D & E). unfold read_indices. destruct A as [A|A]; rewrite A; cbn [fst snd]; split; try reflexivity; [|repeat split; auto; now right].
  repeat split; cbn; auto; now right.
Qed.
Lemma read_flat_spec g : fresh g -> fst (read_flat g) = flat_of (shape g) /\ fresh (snd (read_flat g)).
Proof.
  intros (A & B & C & D & E). unfold read_flat. destruct B as [B|B]; rewrite B; cbn [fst snd]; split; try reflexivity; [|repeat split; auto; now right].
  repeat split; cbn; auto; now right.
Qed.
Lemma read_dists_spec g : fresh g -> fst (read_dists root g) = dists_of (g_matrix g) (shape g) /\ fresh (snd (read_dists root g)).
Proof.
  intros F. unfold read_dists. pose proof (read_indices_spec g F) as [RI RF]. assert (SH : shape (snd (read_indices g)) = shape g /\ g_matrix (snd (read_indices g)) = g_matrix g) by (unfold read_indices; destruct (g_indices g); split; reflexivity).
  destruct (proj1 (proj2 (proj2 F))) as [C|C]; rewrite C; [|split; [reflexivity|exact F]]. destruct (read_indices g) as [ix g']. cbn [fst snd] in *. subst ix. destruct SH as [S1 S2]. rewrite S1. destruct (shape g) as [[x y] z] eqn:SG. cbn [fst snd]. rewrite S2. split; [reflexivity|].
  destruct RF as (A & B & _ & D & E). unfold fresh, shape, total in *. cbn [g_indices g_flat g_dists g_far g_images g_data g_matrix] in *. rewrite S1 in *. rewrite ?S2 in *. repeat split; auto. now right.
Qed.
Lemma read_far_spec g : fresh g -> fst (read_far root g) = far_of (g_matrix g) (shape g) /\ fresh (snd (read_far root g)).
Proof.
  intros (A & B & C & D & E). unfold read_far. destruct D as [D|D]; rewrite D; cbn [fst snd]; split; try reflexivity; [|repeat split; auto; now right].
  repeat split; cbn; auto; now right.
Qed.
Lemma read_images_spec g : fresh g -> fst (read_images g) = images_of (shape g) /\ fresh (snd (read_images g)).
Proof.
  intros (A & B & C & D & E). unfold read_images. destruct E as [E|E]; rewrite E; cbn [fst snd]; split; try reflexivity; [|repeat split; auto; now right].
  repeat split; cbn; auto; now right.
Qed.

Lemma zip_shape f a b c : a_zip f a b = Some c -> a_shape c = a_shape a /\ a_shape b = a_shape a /\ forall i j k, a_at c i j k = f (a_at a i j k) (a_at b i j k).
Proof. unfold a_zip. destruct (shape_eqb (a_shape a) (a_shape b)) eqn:E; [|discriminate]. apply shape_eqb_spec in E. intros H. injection H as <-. cbn. auto. Qed.

Lemma add_lookup s other d : forall r, add_data s other d = Some r -> forall k,
  match lookup k d with
  | None => lookup k r = None
  | Some a => exists b c, lookup k other = Some b /\ lookup k r = Some c /\ a_zip (fun p q => p + s * q)%Q a b = Some c
  end.
Proof.
  induction d as [|[h a] d IH]; intros r H k; cbn [add_data] in H.
  - injection H as <-. reflexivity.
  - destruct (lookup h other) as [b|] eqn:E; [|discriminate]. destruct (a_zip _ a b) as [c|] eqn:Zp; [|discriminate]. destruct (add_data s other d) as [r'|] eqn:R; [|discriminate]. injection H as <-.
    cbn [lookup]. destruct (key_eqb k h) eqn:K; [|exact (IH _ eq_refl k)]. apply key_eqb_spec in K. subst h. exists b, c. auto.
Qed.
Lemma add_shape other s g g' : linear_add other s g = Some g' -> shape g' = shape g.
Proof.
  unfold linear_add. destruct (keys_eqb _ _); [|discriminate]. destruct (add_data s (g_data other) (g_data g)) as [d|] eqn:E; [|discriminate]. intros H. injection H as <-.
  unfold shape, total. cbn [with_aug with_data g_data]. pose proof (add_lookup _ _ _ _ E Total) as L. destruct (lookup Total (g_data g)) as [a|].
  - destruct L as (b & c & _ & -> & Zp). now apply zip_shape in Zp.
  - now rewrite L.
Qed.

Lemma fresh_step g o : fresh g -> fresh (step g o).
Proof.
  intros F. destruct o; cbn [GobjModel.step].
  - apply fresh_reset.
  - apply fresh_reset.
  - unfold make_supercell. destruct (tile_data f (total g)) as [t|]; [|exact F]. destruct (truth (diff (set_total t g))) as [b|]; [|apply fresh_reset].
    cbn [fst]. destruct b; [destruct (diff (set_total t g)) as [d|]; [destruct (tile_data f d) as [d'|]|]|]; repeat split; now left.
  - apply fresh_or; [|exact F]. intros g'. apply fresh_make.
  - apply fresh_or; [|exact F]. intros g'. apply fresh_make.
  - apply fresh_or; [|exact F]. intros g' H. pose proof (add_shape _ _ _ _ H) as S. unfold linear_add in H. destruct (keys_eqb _ _); [|discriminate]. destruct (add_data _ _ _) as [d|]; [|discriminate]. injection H as <-.
    unfold fresh in *. rewrite S. cbn. exact F.
  - now apply read_indices_spec.
  - now apply read_flat_spec.
  - now apply read_dists_spec.
  - now apply read_far_spec.
  - now apply read_images_spec.
  - unfold read_coeffs. destruct (g_coeffs g); exact F.
  - unfold read_neigh. destruct (g_neigh g); exact F.
  - unfold split_to_spin. destruct (negb (g_polarized g) || g_soc g); [exact F|].
    assert (G : forall parts g', (match g_type g with Elf => (match diff g with Some d => Some (total g, d) | None => None end, g) | Charge => read_spin g end) = (parts, g') -> fresh g').
    { intros parts g' H. destruct (g_type g).
      - unfold read_spin in H. destruct (g_spin g); [injection H as _ <-; exact F|]. destruct (spin_of g); injection H as _ <-; exact F.
      - injection H as _ <-. exact F. }
    destruct (match g_type g with Elf => _ | Charge => _ end) as [parts g'] eqn:H. specialize (G _ _ eq_refl). destruct parts as [[u w]|]; [|exact G].
    exact G.
Qed.
Lemma fresh_run os : forall g, fresh g -> fresh (run g os).
Proof. induction os as [|o os IH]; intros g F; [exact F|]. apply IH. now apply fresh_step. Qed.

(** ** Neighbour distances *)
Hypothesis root_eq : forall p q, (p == q)%Q -> (root p == root q)%Q.

Lemma neigh_scale f m s : let '(x, y, z) := f in 1 <= x -> 1 <= y -> 1 <= z ->
  Forall2 Qeq (neigh_of m s) (neigh_of (scale_matrix f m) (let '(nx, ny, nz) := s in (x * nx, y * ny, z * nz))).
Proof.
  destruct f as [[x y] z], s as [[nx ny] nz]. intros X Y Z0. unfold GobjModel.neigh_of, point_neighbor_dists, grid_to_cart, frac_to_cart, grid_to_frac. rewrite !map_map.
  induction point_neighbors as [|v l IH]; constructor; [|exact IH]. apply root_eq. destruct v as [[i j] k], m as [[[[a1 a2] a3] [[b1 b2] b3]] [[c1 c2] c3]].
  cbn [qvec over_shape scale_matrix vmat vmap norm2].
  assert (NX : ~ (inject_Z x == 0)%Q) by (unfold Qeq; cbn; lia). assert (NY : ~ (inject_Z y == 0)%Q) by (unfold Qeq; cbn; lia). assert (NZ : ~ (inject_Z z == 0)%Q) by (unfold Qeq; cbn; lia).
  assert (R : forall a n w t, ~ (inject_Z w == 0)%Q -> (inject_Z a / inject_Z n * t == inject_Z a / inject_Z (w * n) * (inject_Z w * t))%Q).
  { intros a n w t N. rewrite inject_Z_mult. unfold Qdiv. rewrite Qinv_mult_distr. rewrite <- (Qmult_1_r (inject_Z a * / inject_Z n * t)), <- (Qmult_inv_r (inject_Z w) N). ring. }
  rewrite (R i nx x a1), (R i nx x a2), (R i nx x a3), (R j ny y b1), (R j ny y b2), (R j ny y b3), (R k nz z c1), (R k nz z c2), (R k nz z c3) by assumption. reflexivity.
Qed.

Definition neigh_ok (g : grid) : Prop := match g_neigh g with None => True | Some v => Forall2 Qeq v (neigh_of (g_matrix g) (shape g)) end.
(** Assignments keep the shape and [make_supercell] raises no exception. *)
Definition quiet (g : grid) (o : op) : Prop :=
  match o with SetTotal a => a_shape a = shape g | Supercell f => snd (make_supercell f g) = false | _ => True end.
Fixpoint quiet_run (g : grid) (os : list op) : Prop := match os with [] => True | o :: t => quiet g o /\ quiet_run (step g o) t end.

Lemma Forall2_trans_Qeq a b c : Forall2 Qeq a b -> Forall2 Qeq b c -> Forall2 Qeq a c.
Proof. intros H. revert c. induction H as [|x y a b E H IH]; intros c K; inversion K as [|y' z b' c' E' K']; subst; constructor; [now rewrite E|now apply IH]. Qed.
Lemma Forall2_refl_Qeq a : Forall2 Qeq a a.
Proof. induction a; constructor; auto. reflexivity. Qed.

Lemma shape_set_total t g : shape (set_total t g) = a_shape t.
Proof. unfold shape, total, set_total. cbn [reset_cache with_data g_data]. now rewrite lookup_assign. Qed.
Lemma shape_set_diff d g : shape (set_diff d g) = shape g.
Proof. unfold shape, total, set_diff. cbn [reset_cache with_data g_data]. now rewrite lookup_assign. Qed.

Lemma tile_spec f a t : tile_data f a = Some t -> let '(x, y, z) := f in let '(nx, ny, nz) := a_shape a in
  1 <= x /\ 1 <= y /\ 1 <= z /\ a_shape t = (x * nx, y * ny, z * nz) /\ forall i j k, a_at t i j k = a_at a (i mod nx) (j mod ny) (k mod nz).
Proof.
  unfold tile_data. destruct f as [[x y] z], (a_shape a) as [[nx ny] nz]. destruct ((1 <=? x) && (1 <=? y) && (1 <=? z)) eqn:E; [|discriminate]. apply andb_true_iff in E as [E E3]. apply andb_true_iff in E as [E1 E2]. apply Z.leb_le in E1, E2, E3.
  intros H. injection H as <-. auto.
Qed.
Lemma supercell_spec f g g' : make_supercell f g = (g', false) -> let '(x, y, z) := f in let '(nx, ny, nz) := shape g in
  1 <= x /\ 1 <= y /\ 1 <= z /\ shape g' = (x * nx, y * ny, z * nz) /\ (forall i j k, a_at (total g') i j k = a_at (total g) (i mod nx) (j mod ny) (k mod nz)) /\
  g_matrix g' = scale_matrix f (g_matrix g) /\ g_ngridpts g' = g_ngridpts g /\ g_neigh g' = g_neigh g /\ g_coeffs g' = g_coeffs g.
Proof.
  unfold make_supercell. intros H. destruct (tile_data f (total g)) as [t|] eqn:T; [|discriminate]. pose proof (tile_spec f (total g) t T) as TS. destruct f as [[x y] z]. unfold shape at 1. destruct (a_shape (total g)) as [[nx ny] nz] eqn:S.
  destruct TS as (E1 & E2 & E3 & TS & TV). assert (TT : total (set_total t g) = t) by (unfold total, set_total; cbn [reset_cache with_data g_data]; now rewrite lookup_assign).
  destruct (truth (diff (set_total t g))) as [b|]; [|discriminate]. apply (f_equal fst) in H. cbn [fst] in H. subst g'.
  match goal with |- context [with_matrix _ ?h] => set (g' := h) end.
  assert (K : total g' = t /\ g_matrix g' = g_matrix g /\ g_ngridpts g' = g_ngridpts g /\ g_neigh g' = g_neigh g /\ g_coeffs g' = g_coeffs g).
  { subst g'. destruct b; [destruct (diff (set_total t g)) as [d|]; [destruct (tile_data (x, y, z) d) as [d'|]|]|]; split; auto. unfold total, set_diff. cbn [reset_cache with_data g_data]. rewrite lookup_assign. cbn [key_eqb]. exact TT. }
  destruct K as (K1 & K2 & K3 & K4 & K5). repeat split; auto.
  - unfold shape, total. cbn [with_matrix g_data]. fold (total g'). rewrite K1. exact TS.
  - intros i j k. unfold total at 1. cbn [with_matrix g_data]. fold (total g'). rewrite K1. apply TV.
  - cbn [with_matrix g_matrix]. now rewrite K2.
Qed.

Lemma neigh_step g o : quiet g o -> neigh_ok g -> neigh_ok (step g o).
Proof.
  intros QT N. unfold neigh_ok in *. destruct o; cbn [GobjModel.step quiet] in *.
  - rewrite shape_set_total, QT. exact N.
  - rewrite shape_set_diff. exact N.
  - destruct (make_supercell f g) as [g' b] eqn:MS. cbn [snd] in QT. subst b. cbn [fst]. pose proof (supercell_spec f g g' MS) as SP. pose proof (neigh_scale f (g_matrix g) (shape g)) as NS. destruct f as [[x y] z], (shape g) as [[nx ny] nz]. destruct SP as (X & Y & Z0 & S & _ & M & _ & NE & _).
    rewrite NE, S, M. destruct (g_neigh g); [|exact I]. eapply Forall2_trans_Qeq; [exact N|]. now apply NS.
  - unfold copy, make_grid. destruct (lookup Total (g_data g)); [exact I|exact N].
  - unfold regrid, make_grid. destruct (lookup Total _); [exact I|exact N].
  - destruct (linear_add other s g) as [g'|] eqn:H; [|exact N]. cbn [or_same]. pose proof (add_shape _ _ _ _ H) as S. unfold linear_add in H. destruct (keys_eqb _ _); [|discriminate]. destruct (add_data _ _ _) as [d|]; [|discriminate]. injection H as <-. rewrite S. exact N.
  - unfold read_indices. destruct (g_indices g); exact N.
  - unfold read_flat. destruct (g_flat g); exact N.
  - unfold read_dists. destruct (g_dists g); [exact N|]. unfold read_indices. destruct (g_indices g); cbn [fst snd]; destruct (shape _) as [[x y] z] eqn:S; exact N || (unfold shape, total in *; cbn in *; rewrite S in *; exact N).
  - unfold read_far. destruct (g_far g); exact N.
  - unfold read_images. destruct (g_images g); exact N.
  - unfold read_coeffs. destruct (g_coeffs g); exact N.
  - unfold read_neigh. destruct (g_neigh g) as [l|] eqn:NE; cbn [snd]; [rewrite NE; exact N|]. cbn [g_neigh]. apply Forall2_refl_Qeq.
  - unfold split_to_spin. destruct (negb (g_polarized g) || g_soc g); [exact N|]. destruct (g_type g).
    + unfold read_spin. destruct (g_spin g) as [[u w]|]; [exact N|]. destruct (spin_of g) as [[u w]|]; exact N.
    + destruct (diff g); exact N.
Qed.
Lemma neigh_run os : forall g, quiet_run g os -> neigh_ok g -> neigh_ok (run g os).
Proof. induction os as [|o os IH]; intros g Qr N; [exact N|]. destruct Qr as [Q0 Qr]. apply IH; [exact Qr|]. now apply neigh_step. Qed.
End Proofs.
