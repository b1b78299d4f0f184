(** C220-C223: the Voronoi facets of a grid point. *)
From Coq Require Import QArith Lqa Lia.
From Verif Require Import Base GridModel ChargeModel NearModel CoordModel CoordProofs VaspModel TextModel FacetModel.
Local Open Scope Z_scope.

(** ** Lattice points *)
Section Lattice.
Variables nx ny nz : Z.
Variable m : mat.
(** The grid point [t] steps away from the origin. *)
Definition spot (t : Z * Z * Z) : vec := let '(i, j, k) := t in vmat (inject_Z i / inject_Z nx, inject_Z j / inject_Z ny, inject_Z k / inject_Z nz)%Q m.
Definition dist2 (a b : vec) : Q := norm2 (vsub a b).
Definition origin : vec := (0, 0, 0)%Q.
(** [x] is not nearer to the point [t] than to the origin; strictly nearer to the origin. *)
Definition closer (x : vec) (t : Z * Z * Z) : Prop := (dist2 x origin <= dist2 x (spot t))%Q.
Definition strictly (x : vec) (t : Z * Z * Z) : Prop := (dist2 x origin < dist2 x (spot t))%Q.
Definition box (t : Z * Z * Z) : Prop := let '(i, j, k) := t in -2 <= i <= 2 /\ -2 <= j <= 2 /\ -2 <= k <= 2.
Definition zadd (s t : Z * Z * Z) : Z * Z * Z := let '(a, b, c) := s in let '(d, e, f) := t in (a + d, b + e, c + f).
Definition zmul (n : Z) (t : Z * Z * Z) : Z * Z * Z := let '(a, b, c) := t in (n * a, n * b, n * c).
Definition dot (a b : vec) : Q := let '(x, y, z) := a in let '(u, v, w) := b in (x * u + y * v + z * w)%Q.
(** Three steps that reach every grid point and enclose, with the one leading back, no acute angle; all their sums stay
    in the box. *)
Record reduced (u v w : Z * Z * Z) : Prop := {
  r_all : forall t, exists a b c, t = zadd (zmul a u) (zadd (zmul b v) (zmul c w));
  r_uv : (dot (spot u) (spot v) <= 0)%Q; r_uw : (dot (spot u) (spot w) <= 0)%Q; r_vw : (dot (spot v) (spot w) <= 0)%Q;
  r_back : forall s, In s [u; v; w] -> (0 <= dot (spot s) (spot (zadd u (zadd v w))))%Q;
  r_box : forall s, In s [u; v; w; zadd u v; zadd u w; zadd v w; zadd u (zadd v w)] -> box s }.

Definition vplus (a b : vec) : vec := let '(x, y, z) := a in let '(u, v, w) := b in (x + u, y + v, z + w)%Q.
Definition vtimes (q : Q) (a : vec) : vec := let '(x, y, z) := a in (q * x, q * y, q * z)%Q.
Lemma spot_add s t : veq (spot (zadd s t)) (vplus (spot s) (spot t)).
Proof. destruct s as [[a b] c], t as [[d e] f]. unfold spot. destruct m as [[[[m1 m2] m3] [[m4 m5] m6]] [[m7 m8] m9]]. cbn. rewrite !inject_Z_plus. unfold Qdiv. repeat split; ring. Qed.
Lemma spot_mul n t : veq (spot (zmul n t)) (vtimes (inject_Z n) (spot t)).
Proof. destruct t as [[d e] f]. unfold spot. destruct m as [[[[m1 m2] m3] [[m4 m5] m6]] [[m7 m8] m9]]. cbn. rewrite !inject_Z_mult. unfold Qdiv. repeat split; ring. Qed.
(** The same in terms of a scalar product. *)
Lemma closer_dot x t : (dist2 x (spot t) - dist2 x origin == norm2 (spot t) - 2 * dot x (spot t))%Q.
Proof. unfold dist2, origin. destruct x as [[a b] c], (spot t) as [[d e] f]. cbn. ring. Qed.

Variables u v w : Z * Z * Z.
Hypothesis R : reduced u v w.
Definition quad := (Z * Z * Z * Z)%type.
Definition T (q : quad) : Z * Z * Z := let '(a, b, c, d) := q in zadd (zmul (b - a) u) (zadd (zmul (c - a) v) (zmul (d - a) w)).
Definition qsub (p q : quad) : quad := let '(a, b, c, d) := p in let '(e, f, g, h) := q in (a - e, b - f, c - g, d - h).
Definition qmax (q : quad) : Z := let '(a, b, c, d) := q in Z.max (Z.max a b) (Z.max c d).
Definition qmin4 (q : quad) : Z := let '(a, b, c, d) := q in Z.min (Z.min a b) (Z.min c d).
Definition b2z (b : bool) : Z := if b then 1 else 0.
Definition top (q : quad) : quad := let '(a, b, c, d) := q in let x := qmax q in (b2z (a =? x), b2z (b =? x), b2z (c =? x), b2z (d =? x)).
Definition N (q : quad) : Q := norm2 (spot (T q)).
Definition sq (a b : Z) : Q := (inject_Z (a - b) * inject_Z (a - b))%Q.
Lemma N_eq a b c d : (N (a, b, c, d) == dot (spot u) (spot (zadd u (zadd v w))) * sq b a + dot (spot v) (spot (zadd u (zadd v w))) * sq c a + dot (spot w) (spot (zadd u (zadd v w))) * sq d a
   + (- dot (spot u) (spot v)) * sq b c + (- dot (spot u) (spot w)) * sq b d + (- dot (spot v) (spot w)) * sq c d)%Q.
Proof.
  unfold N, T. set (s := zadd u (zadd v w)).
  assert (E : veq (spot (zadd (zmul (b - a) u) (zadd (zmul (c - a) v) (zmul (d - a) w)))) (vplus (vtimes (inject_Z (b - a)) (spot u)) (vplus (vtimes (inject_Z (c - a)) (spot v)) (vtimes (inject_Z (d - a)) (spot w))))).
  { eapply veq_trans; [apply spot_add|]. pose proof (spot_mul (b - a) u) as E1. pose proof (spot_add (zmul (c - a) v) (zmul (d - a) w)) as E2. pose proof (spot_mul (c - a) v) as E3. pose proof (spot_mul (d - a) w) as E4.
    destruct (spot (zmul (b - a) u)) as [[? ?] ?], (spot (zadd (zmul (c - a) v) (zmul (d - a) w))) as [[? ?] ?], (spot (zmul (c - a) v)) as [[? ?] ?], (spot (zmul (d - a) w)) as [[? ?] ?], (spot u) as [[? ?] ?], (spot v) as [[? ?] ?], (spot w) as [[? ?] ?]. cbn in *.
    destruct E1 as (? & ? & ?), E2 as (? & ? & ?), E3 as (? & ? & ?), E4 as (? & ? & ?). repeat split; lra. }
  rewrite (norm2_comp _ _ E).
  assert (F : veq (spot s) (vplus (spot u) (vplus (spot v) (spot w)))).
  { unfold s. eapply veq_trans; [apply spot_add|]. pose proof (spot_add v w) as E2. destruct (spot (zadd v w)) as [[? ?] ?], (spot u) as [[? ?] ?], (spot v) as [[? ?] ?], (spot w) as [[? ?] ?]. cbn in *. destruct E2 as (? & ? & ?). repeat split; lra. }
  destruct (spot s) as [[s1 s2] s3], (spot u) as [[u1 u2] u3], (spot v) as [[v1 v2] v3], (spot w) as [[w1 w2] w3]. cbn in *. destruct F as (F1 & F2 & F3). rewrite F1, F2, F3. unfold sq. unfold Z.sub. rewrite !inject_Z_plus, !inject_Z_opp. ring.
Qed.
Lemma sq_top a b x : a <= x -> b <= x -> let s := b2z (a =? x) in let r := b2z (b =? x) in (sq s r + sq (a - s) (b - r) <= sq a b)%Q.
Proof.
  intros A B s r. unfold sq. rewrite <- !inject_Z_mult, <- inject_Z_plus, <- Zle_Qle. unfold s, r, b2z. destruct (a =? x) eqn:E1, (b =? x) eqn:E2; nia.
Qed.
Lemma weigh p a b c : (0 <= p)%Q -> (a + b <= c)%Q -> (p * a + p * b <= p * c)%Q.
Proof. intros P L. rewrite <- Qmult_plus_distr_r. rewrite (Qmult_comm p), (Qmult_comm p c). now apply Qmult_le_compat_r. Qed.
Lemma N_top q : (N (top q) + N (qsub q (top q)) <= N q)%Q.
Proof.
  destruct q as [[[a b] c] d]. unfold top, qsub. set (x := qmax (a, b, c, d)). assert (L : a <= x /\ b <= x /\ c <= x /\ d <= x) by (unfold x, qmax; lia). destruct L as (La & Lb & Lc & Ld).
  rewrite !N_eq. pose proof (r_back _ _ _ R) as K.
  pose proof (weigh _ _ _ _ (K u ltac:(cbn; auto)) (sq_top b a x Lb La)). pose proof (weigh _ _ _ _ (K v ltac:(cbn; auto)) (sq_top c a x Lc La)). pose proof (weigh _ _ _ _ (K w ltac:(cbn; auto)) (sq_top d a x Ld La)).
  assert (P1 : (0 <= - dot (spot u) (spot v))%Q) by (pose proof (r_uv _ _ _ R); lra). assert (P2 : (0 <= - dot (spot u) (spot w))%Q) by (pose proof (r_uw _ _ _ R); lra). assert (P3 : (0 <= - dot (spot v) (spot w))%Q) by (pose proof (r_vw _ _ _ R); lra).
  pose proof (weigh _ _ _ _ P1 (sq_top b c x Lb Lc)). pose proof (weigh _ _ _ _ P2 (sq_top b d x Lb Ld)). pose proof (weigh _ _ _ _ P3 (sq_top c d x Lc Ld)). cbv zeta in *. lra.
Qed.
Lemma T_top q : T q = zadd (T (top q)) (T (qsub q (top q))).
Proof. destruct q as [[[a b] c] d]. unfold top. set (x := qmax _). clearbody x. generalize (b2z (a =? x)) (b2z (b =? x)) (b2z (c =? x)) (b2z (d =? x)). intros. unfold qsub, T, zadd, zmul. destruct u as [[u1 u2] u3], v as [[v1 v2] v3], w as [[w1 w2] w3]. apply f_equal2; [apply f_equal2|]; ring. Qed.
Lemma range_top q : qmin4 q < qmax q -> qmin4 q <= qmin4 (qsub q (top q)) /\ qmax (qsub q (top q)) <= qmax q - 1.
Proof. destruct q as [[[a b] c] d]. unfold top. set (x := qmax (a, b, c, d)). assert (X : x = Z.max (Z.max a b) (Z.max c d)) by reflexivity. clearbody x. unfold qsub, qmin4, qmax. intros L. unfold b2z. destruct (a =? x) eqn:E1, (b =? x) eqn:E2, (c =? x) eqn:E3, (d =? x) eqn:E4; lia. Qed.
Lemma range_zero q : qmax q <= qmin4 q -> T q = (0, 0, 0).
Proof. destruct q as [[[a b] c] d]. unfold qmax, qmin4. intros L. assert (b = a /\ c = a /\ d = a) as (-> & -> & ->) by lia. unfold T. rewrite Z.sub_diag. destruct u as [[u1 u2] u3], v as [[v1 v2] v3], w as [[w1 w2] w3]. cbn. reflexivity. Qed.
Lemma box_opp s : box s -> box (zmul (-1) s).
Proof. destruct s as [[a b] c]. unfold box, zmul. lia. Qed.
Lemma top_box q : box (T (top q)).
Proof.
  destruct q as [[[a b] c] d]. unfold top. set (x := qmax _). pose proof (r_box _ _ _ R) as B. unfold T.
  destruct u as [[u1 u2] u3], v as [[v1 v2] v3], w as [[w1 w2] w3]. cbn [In zadd] in B.
  assert (B1 := B _ (or_introl eq_refl)). assert (B2 := B _ (or_intror (or_introl eq_refl))). assert (B3 := B _ (or_intror (or_intror (or_introl eq_refl)))). assert (B4 := B _ (or_intror (or_intror (or_intror (or_introl eq_refl))))).
  assert (B5 := B _ (or_intror (or_intror (or_intror (or_intror (or_introl eq_refl)))))). assert (B6 := B _ (or_intror (or_intror (or_intror (or_intror (or_intror (or_introl eq_refl))))))). assert (B7 := B _ (or_intror (or_intror (or_intror (or_intror (or_intror (or_intror (or_introl eq_refl)))))))).
  clear B. unfold box in *. unfold zadd, zmul, b2z. destruct (a =? x), (b =? x), (c =? x), (d =? x); cbn [Z.sub Z.opp Z.add Z.pos_sub]; lia.
Qed.
Lemma T_all t : exists q, T q = t.
Proof. destruct (r_all _ _ _ R t) as (a & b & c & ->). exists (0, a, b, c). unfold T. now rewrite !Z.sub_0_r. Qed.
Lemma dot_top x q : (dot x (spot (T q)) == dot x (spot (T (top q))) + dot x (spot (T (qsub q (top q)))))%Q.
Proof. rewrite T_top at 1. pose proof (spot_add (T (top q)) (T (qsub q (top q)))) as E. destruct x as [[x1 x2] x3], (spot (zadd _ _)) as [[? ?] ?], (spot (T (top q))) as [[? ?] ?], (spot (T (qsub q (top q)))) as [[? ?] ?]. cbn in *. destruct E as (E1 & E2 & E3). rewrite E1, E2, E3. ring. Qed.
Lemma zero_case x : (dot x (spot (0, 0, 0)%Z) == 0 /\ norm2 (spot (0, 0, 0)%Z) == 0)%Q.
Proof. destruct x as [[x1 x2] x3]. unfold spot. destruct m as [[[[m1 m2] m3] [[m4 m5] m6]] [[m7 m8] m9]]. cbn. split; unfold Qdiv; ring. Qed.
Lemma closer_iff x t : closer x t <-> (2 * dot x (spot t) <= norm2 (spot t))%Q.
Proof. unfold closer. pose proof (closer_dot x t). split; intros; lra. Qed.
Lemma strictly_iff x t : strictly x t <-> (2 * dot x (spot t) < norm2 (spot t))%Q.
Proof. unfold strictly. pose proof (closer_dot x t). split; intros; lra. Qed.
Lemma cell_all x : (forall t, box t -> closer x t) -> forall t, closer x t.
Proof.
  intros B t. destruct (T_all t) as (q & <-). apply closer_iff. remember (Z.to_nat (qmax q - qmin4 q)) as n eqn:En. revert q En. induction n as [n IH] using (well_founded_induction lt_wf). intros q En.
  destruct (Z_lt_le_dec (qmin4 q) (qmax q)) as [L|L].
  - destruct (range_top q L) as [L1 L2]. assert (F : (2 * dot x (spot (T (qsub q (top q)))) <= norm2 (spot (T (qsub q (top q)))))%Q) by (apply (IH (Z.to_nat (qmax (qsub q (top q)) - qmin4 (qsub q (top q))))); [lia|reflexivity]).
    pose proof (proj1 (closer_iff x _) (B _ (top_box q))) as G. pose proof (N_top q) as K. unfold N in K. rewrite (dot_top x q). lra.
  - rewrite (range_zero q L). destruct (zero_case x) as [-> ->]. lra.
Qed.
Lemma strict_all x t0 : (forall t, box t -> t <> (0, 0, 0) -> t <> t0 -> strictly x t) -> forall q, T q = (0, 0, 0) \/ box t0 \/ (2 * dot x (spot (T q)) < norm2 (spot (T q)))%Q.
Proof.
  intros B q. remember (Z.to_nat (qmax q - qmin4 q)) as n eqn:En. revert q En. induction n as [n IH] using (well_founded_induction lt_wf). intros q En.
  destruct (Z_lt_le_dec (qmin4 q) (qmax q)) as [L|L]; [|left; now apply range_zero].
  destruct (range_top q L) as [L1 L2]. assert (DEC : forall s t : Z * Z * Z, {s = t} + {s <> t}) by (repeat decide equality).
  assert (F := IH (Z.to_nat (qmax (qsub q (top q)) - qmin4 (qsub q (top q)))) ltac:(lia) _ eq_refl). pose proof (N_top q) as K. unfold N in K. pose proof (dot_top x q) as D. pose proof (T_top q) as TT.
  destruct (DEC (T (top q)) t0) as [<-|N0]; [right; left; apply top_box|]. destruct F as [F|[F|F]]; [|auto|].
  - destruct (DEC (T (top q)) (0, 0, 0)) as [Z0|Z0]; [left; rewrite TT, F, Z0; reflexivity|]. right; right. assert (S := proj1 (strictly_iff x _) (B _ (top_box q) Z0 N0)). rewrite F in K, D. destruct (zero_case x) as [D0 N1]. rewrite D0 in D. rewrite N1 in K. lra.
  - right; right. destruct (DEC (T (top q)) (0, 0, 0)) as [Z0|Z0]; [rewrite Z0 in K, D; destruct (zero_case x) as [D0 N1]; rewrite D0 in D; rewrite N1 in K; lra|]. assert (S := proj1 (strictly_iff x _) (B _ (top_box q) Z0 N0)). lra.
Qed.
End Lattice.

(** ** The list of facets *)
(** What is asked of the Voronoi construction about one point [c] with a bounded cell: the vertices of its ridges lie as
    near to both of their points and no nearer to any other; two points sharing a place nearer to both than to all others
    have a ridge. *)
Definition voronoi_ok (c : nat) (sites : list vec) (ridges : list ((nat * nat) * list vec)) : Prop :=
  (forall p q vs, In ((p, q), vs) ridges -> p = c \/ q = c -> p <> q /\ vs <> [] /\ exists a b, nth_error sites p = Some a /\ nth_error sites q = Some b /\
     forall x, In x vs -> (dist2 x a == dist2 x b)%Q /\ forall s, In s sites -> (dist2 x a <= dist2 x s)%Q) /\
  (forall q a b x, nth_error sites c = Some a -> nth_error sites q = Some b -> q <> c -> (dist2 x a == dist2 x b)%Q ->
     (forall r s, nth_error sites r = Some s -> r <> c -> r <> q -> (dist2 x a < dist2 x s)%Q) -> exists vs, In ((c, q), vs) ridges \/ In ((q, c), vs) ridges).

Lemma dist2_comp x a b : veq a b -> (dist2 x a == dist2 x b)%Q.
Proof. destruct x as [[? ?] ?], a as [[? ?] ?], b as [[? ?] ?]. unfold dist2. cbn. intros (-> & -> & ->). reflexivity. Qed.
Lemma positions_in t : In t voxel_positions <-> box t.
Proof.
  destruct t as [[i j] k]. unfold voxel_positions. rewrite !in_prod_iff. unfold reach, box. cbn [In]. lia.
Qed.
Lemma center_eq : center = 62%nat.
Proof. reflexivity. Qed.
Lemma center_at : nth_error voxel_positions center = Some (0, 0, 0).
Proof. reflexivity. Qed.
Lemma positions_nodup : NoDup voxel_positions.
Proof.
  assert (D : forall A B (l : list A) (r : list B), NoDup l -> NoDup r -> NoDup (list_prod l r)).
  { intros A B l r L R. induction L as [|a l N L IH]; [constructor|]. cbn [list_prod].
    assert (M : NoDup (map (fun y => (a, y)) r)) by (clear - R; induction R as [|b r N R IH]; cbn; constructor; [|exact IH]; intros C; apply in_map_iff in C as (y & E & Y); injection E as ->; contradiction).
    assert (X : forall z, In z (map (fun y => (a, y)) r) -> ~ In z (list_prod l r)). { intros [z1 z2] Z1 Z2. apply in_map_iff in Z1 as (y & E & _). injection E as -> ->. apply in_prod_iff in Z2 as [Z2 _]. contradiction. }
    clear - M IH X. induction M as [|z zs N M IHM]; [exact IH|]. cbn [app]. constructor; [intros C; apply in_app_iff in C as [C|C]; [contradiction|]; apply (X z); [now left|exact C]|]. apply IHM. intros y Y. apply X. now right. }
  assert (R : NoDup reach) by (unfold reach; repeat constructor; cbn; lia). unfold voxel_positions. auto.
Qed.
Section List.
Variables nx ny nz : Z.
Variable m : mat.
Variable root : Q -> Q.
Variable voronoi : list vec -> list ((nat * nat) * list vec).
Let sites := cart_positions nx ny nz m.
Let spot := spot nx ny nz m.
Lemma site_at p : nth_error sites p = option_map spot (nth_error voxel_positions p).
Proof.
  unfold sites, cart_positions, grid_to_cart, frac_to_cart, grid_to_frac. rewrite !map_map. rewrite nth_error_map. destruct (nth_error voxel_positions p) as [[[i j] k]|]; reflexivity.
Qed.
Lemma spot_zero : veq (spot (0, 0, 0)) origin.
Proof. unfold spot, FacetProps.spot, origin. destruct m as [[[[m1 m2] m3] [[m4 m5] m6]] [[m7 m8] m9]]. cbn. unfold Qdiv. repeat split; ring. Qed.
Lemma site_in s : In s sites <-> exists t, box t /\ s = spot t.
Proof.
  split.
  - intros I. apply In_nth_error in I as (p & P). rewrite site_at in P. destruct (nth_error voxel_positions p) as [t|] eqn:E; [|discriminate]. injection P as <-. exists t. split; [apply positions_in; eapply nth_error_In; exact E|reflexivity].
  - intros (t & B & ->). apply positions_in in B. apply In_nth_error in B as (p & P). apply (nth_error_In _ p). now rewrite site_at, P.
Qed.
Hypothesis OK : voronoi_ok center sites (voronoi sites).
Lemma ridge_facet p q vs : In ((p, q), vs) (voronoi sites) -> has_center ((p, q), vs) = true -> exists f n, of_ridge nx ny nz m root ((p, q), vs) = Some f /\
  ((p, q) = (center, n) \/ (p, q) = (n, center)) /\ nth_error voxel_positions n = Some (f_shift f) /\
  box (f_shift f) /\ f_shift f <> (0, 0, 0) /\ f_dist f = root (norm2 (spot (f_shift f))) /\ facet_area root (f_vertices f) = Some (f_area f) /\
  f_vertices f <> [] /\ forall x, In x (f_vertices f) -> (dist2 x origin == dist2 x (spot (f_shift f)))%Q /\ forall t, box t -> closer nx ny nz m x t.
Proof.
  intros I H. unfold has_center in H. apply orb_true_iff in H. rewrite !Nat.eqb_eq in H. destruct OK as [V _]. destruct (V p q vs I H) as (N & NE & a & b & A & B & X).
  assert (K : exists n, filter (fun i => negb (Nat.eqb i center)) [p; q] = [n] /\ ((p, q) = (center, n) \/ (p, q) = (n, center)) /\ n <> center).
  { destruct H as [-> | ->].
    - exists q. cbn [filter]. rewrite Nat.eqb_refl. cbn [negb]. destruct (Nat.eqb_spec q center); [congruence|]. auto.
    - exists p. cbn [filter]. destruct (Nat.eqb_spec p center); [congruence|]. cbn [negb]. rewrite Nat.eqb_refl. auto. }
  destruct K as (n & F & PQ & NC). assert (NN : exists t, nth_error voxel_positions n = Some t). { rewrite site_at in A, B. destruct PQ as [E|E]; injection E as -> ->; [destruct (nth_error voxel_positions n)|destruct (nth_error voxel_positions n)]; eauto; discriminate. }
  destruct NN as (t & NT). unfold of_ridge. rewrite F. destruct vs as [|v0 vs0]; [congruence|]. cbn [facet_area obnd]. rewrite NT. cbn [obnd]. fold sites. rewrite site_at, NT. cbn [option_map obnd]. do 2 eexists. split; [reflexivity|]. split; [exact PQ|]. cbn [f_shift f_dist f_area f_vertices]. split; [exact NT|].
  split; [apply positions_in; eapply nth_error_In; exact NT|]. split.
  { intros ->. apply NC. pose proof positions_nodup as D. rewrite NoDup_nth_error in D. apply D; [apply nth_error_Some; congruence|]. now rewrite NT, center_at. }
  split; [reflexivity|]. split; [reflexivity|]. split; [discriminate|]. intros x XI. destruct (X x XI) as [E L].
  assert (AB : exists y, (dist2 x a == dist2 x origin)%Q /\ (dist2 x y == dist2 x (spot t))%Q /\ (a = y \/ b = y) /\ (dist2 x origin == dist2 x (spot t))%Q).
  { pose proof (dist2_comp x _ _ spot_zero) as Z0. rewrite site_at in A, B. destruct PQ as [PQ|PQ]; injection PQ as -> ->.
    - rewrite center_at in A. rewrite NT in B. assert (a = spot (0, 0, 0)) as -> by (cbn [option_map] in A; congruence). assert (b = spot t) as -> by (cbn [option_map] in B; congruence). exists (spot t). split; [exact Z0|split; [reflexivity|split; [auto|]]]. rewrite <- E. now rewrite Z0.
    - rewrite center_at in B. rewrite NT in A. assert (b = spot (0, 0, 0)) as -> by (cbn [option_map] in B; congruence). assert (a = spot t) as -> by (cbn [option_map] in A; congruence). exists (spot t). split; [now rewrite E, Z0|split; [reflexivity|split; [auto|]]]. rewrite E. now rewrite Z0. }
  destruct AB as (y & A1 & _ & _ & A4). split; [exact A4|]. intros s S. unfold closer. rewrite <- A1. apply L. apply site_in. exists s. auto.
Qed.
Lemma facets_ok : exists l, point_neighbor_voronoi_transforms nx ny nz m root voronoi = Some l /\
  (forall f, In f l -> exists p q vs, In ((p, q), vs) (voronoi sites) /\ has_center ((p, q), vs) = true /\ of_ridge nx ny nz m root ((p, q), vs) = Some f) /\
  (forall p q vs f, In ((p, q), vs) (voronoi sites) -> has_center ((p, q), vs) = true -> of_ridge nx ny nz m root ((p, q), vs) = Some f -> In f l).
Proof.
  unfold point_neighbor_voronoi_transforms. fold sites. assert (G : forall rs, (forall r, In r rs -> In r (voronoi sites) /\ has_center r = true) -> exists l, map_opt (of_ridge nx ny nz m root) rs = Some l /\ Forall2 (fun r f => of_ridge nx ny nz m root r = Some f) rs l).
  { induction rs as [|[[p q] vs] rs IH]; intros H; [exists []; split; [reflexivity|constructor]|]. destruct IH as (l & E & F); [intros r I; apply H; now right|]. destruct (H _ (or_introl eq_refl)) as [H1 H2]. destruct (ridge_facet p q vs H1 H2) as (f & n & Ef & _). exists (f :: l). cbn [map_opt]. rewrite Ef, E. split; [reflexivity|]. now constructor. }
  destruct (G (filter has_center (voronoi sites))) as (l & E & F); [intros r I; now apply filter_In in I|]. exists l. split; [exact E|].
  assert (F1 : forall f, In f l -> exists r, In r (filter has_center (voronoi sites)) /\ of_ridge nx ny nz m root r = Some f). { clear - F. induction F as [|r f rs l A F IH]; [contradiction|]. intros g [<-|G]; [exists r; split; [now left|exact A]|]. destruct (IH g G) as (r' & I & B). exists r'. split; [now right|exact B]. }
  assert (F2 : forall r f, In r (filter has_center (voronoi sites)) -> of_ridge nx ny nz m root r = Some f -> In f l). { clear - F. induction F as [|r f rs l A F IH]; [contradiction|]. intros r' g [<-|I] B; [left; congruence|right; now apply (IH r')]. }
  split.
  - intros f I. destruct (F1 f I) as ([[p q] vs] & A & B). apply filter_In in A as [A1 A2]. exists p, q, vs. auto.
  - intros p q vs f I H B. apply (F2 ((p, q), vs)); [now apply filter_In|exact B].
Qed.
End List.

Lemma zmul_zero t : zmul (-1) t = (0, 0, 0) -> t = (0, 0, 0).
Proof.
  destruct t as [[a b] c]. unfold zmul. intros E. assert (E1 : -1 * a = 0) by exact (f_equal (fun t : Z * Z * Z => fst (fst t)) E). assert (E2 : -1 * b = 0) by exact (f_equal (fun t : Z * Z * Z => snd (fst t)) E). assert (E3 : -1 * c = 0) by exact (f_equal (fun t : Z * Z * Z => snd t) E).
  apply f_equal2; [apply f_equal2|]; lia.
Qed.

(** C220: every facet listed for a grid point belongs to a neighbour at most two steps away, with its distance and the
    area of its vertices; the vertices are as near to the point as to the neighbour and no nearer to any point of the
    box; and every neighbour in the box with a true facet is listed. *)
Theorem C220_listed nx ny nz m root voronoi : voronoi_ok center (cart_positions nx ny nz m) (voronoi (cart_positions nx ny nz m)) ->
  exists l, point_neighbor_voronoi_transforms nx ny nz m root voronoi = Some l /\
    (forall f, In f l -> box (f_shift f) /\ f_shift f <> (0, 0, 0) /\ f_dist f = root (norm2 (spot nx ny nz m (f_shift f))) /\
       facet_area root (f_vertices f) = Some (f_area f) /\ f_vertices f <> [] /\
       forall x, In x (f_vertices f) -> (dist2 x origin == dist2 x (spot nx ny nz m (f_shift f)))%Q /\ forall t, box t -> closer nx ny nz m x t) /\
    (forall t x, box t -> t <> (0, 0, 0) -> (dist2 x origin == dist2 x (spot nx ny nz m t))%Q -> (forall s, box s -> s <> (0, 0, 0) -> s <> t -> strictly nx ny nz m x s) ->
       exists f, In f l /\ f_shift f = t).
Proof.
  intros OK. destruct (facets_ok nx ny nz m root voronoi OK) as (l & E & F1 & F2). exists l. split; [exact E|]. split.
  - intros f I. destruct (F1 f I) as (p & q & vs & A & B & C). destruct (ridge_facet nx ny nz m root voronoi OK p q vs A B) as (g & n & D & _ & _ & P). rewrite C in D. injection D as <-. exact P.
  - intros t x B NZ EQ ST. apply positions_in in B. apply In_nth_error in B as (q & Q). pose proof (spot_zero nx ny nz m) as Z0. apply (dist2_comp x) in Z0.
    assert (QC : q <> center) by (intros ->; rewrite center_at in Q; congruence).
    destruct OK as [V W] eqn:EO. clear EO. destruct (W q (spot nx ny nz m (0, 0, 0)) (spot nx ny nz m t) x) as (vs & IV).
    + now rewrite site_at, center_at.
    + now rewrite site_at, Q.
    + exact QC.
    + now rewrite Z0.
    + intros r s RS RC RQ. rewrite site_at in RS. destruct (nth_error voxel_positions r) as [u|] eqn:U; [|discriminate]. injection RS as <-. rewrite Z0.
      pose proof positions_nodup as ND. rewrite NoDup_nth_error in ND. apply ST; [apply positions_in; eapply nth_error_In; exact U| |].
      * intros ->. apply RC. apply ND; [apply nth_error_Some; congruence|]. now rewrite U, center_at.
      * intros ->. apply RQ. apply ND; [apply nth_error_Some; congruence|]. now rewrite U, Q.
    + assert (IR : exists p0 q0, In ((p0, q0), vs) (voronoi (cart_positions nx ny nz m)) /\ has_center ((p0, q0), vs) = true /\ ((p0, q0) = (center, q) \/ (p0, q0) = (q, center))).
      { destruct IV as [I|I]; do 2 eexists; (split; [exact I|]); cbn [has_center]; rewrite Nat.eqb_refl, ?orb_true_r; auto. }
      destruct IR as (p0 & q0 & I & H & PQ). destruct (ridge_facet nx ny nz m root voronoi (conj V W) p0 q0 vs I H) as (f & n & D & PQ' & NT & _). exists f. split; [now apply (F2 p0 q0 vs)|].
      assert (n = q) as ->. { destruct PQ as [PQ|PQ], PQ' as [PQ'|PQ']; rewrite PQ in PQ'; injection PQ'; intros; congruence. } rewrite Q in NT. now injection NT.
Qed.
Print Assumptions C220_listed.
(** The facets of opposite neighbours are listed together. *)
Theorem C220_opposite nx ny nz m root voronoi : voronoi_ok center (cart_positions nx ny nz m) (voronoi (cart_positions nx ny nz m)) ->
  forall t x, box t -> t <> (0, 0, 0) -> (dist2 x origin == dist2 x (spot nx ny nz m t))%Q -> (forall s, box s -> s <> (0, 0, 0) -> s <> t -> strictly nx ny nz m x s) ->
  exists l f g, point_neighbor_voronoi_transforms nx ny nz m root voronoi = Some l /\ In f l /\ In g l /\ f_shift f = t /\ f_shift g = zmul (-1) t.
Proof.
  intros OK t x B NZ EQ ST. destruct (C220_listed nx ny nz m root voronoi OK) as (l & E & _ & F). destruct (F t x B NZ EQ ST) as (f & I1 & S1).
  destruct (F (zmul (-1) t) (vtimes (-1) x)) as (g & I2 & S2).
  - now apply box_opp.
  - intros C. apply NZ. now apply zmul_zero.
  - pose proof (closer_dot nx ny nz m x t) as D1. pose proof (closer_dot nx ny nz m (vtimes (-1) x) (zmul (-1) t)) as D2. pose proof (spot_mul nx ny nz m (-1) t) as SM. pose proof (norm2_comp _ _ SM) as N2.
    assert (P : (dot (vtimes (-1) x) (spot nx ny nz m (zmul (-1) t)) == dot x (spot nx ny nz m t))%Q). { destruct x as [[? ?] ?], (spot nx ny nz m (zmul (-1) t)) as [[? ?] ?], (spot nx ny nz m t) as [[? ?] ?]. cbn in SM |- *. destruct SM as (-> & -> & ->). change (inject_Z (-1)) with (-(1))%Q. ring. }
    assert (P2 : (norm2 (vtimes (inject_Z (-1)) (spot nx ny nz m t)) == norm2 (spot nx ny nz m t))%Q). { destruct (spot nx ny nz m t) as [[? ?] ?]. cbn [vtimes norm2]. change (inject_Z (-1)) with (-(1))%Q. ring. } lra.
  - intros s BS NS ND. assert (S' := ST (zmul (-1) s)). assert (S2 : strictly nx ny nz m x (zmul (-1) s)). { apply S'; [now apply box_opp| |]. - intros C. apply NS. now apply zmul_zero. - intros C. apply ND. rewrite <- C. destruct s as [[a b] c]. unfold zmul. apply f_equal2; [apply f_equal2|]; lia. }
    apply strictly_iff in S2. apply strictly_iff. pose proof (spot_mul nx ny nz m (-1) s) as SM. pose proof (norm2_comp _ _ SM) as N2.
    assert (P : (dot (vtimes (-1) x) (spot nx ny nz m s) == dot x (spot nx ny nz m (zmul (-1) s)))%Q). { destruct x as [[? ?] ?], (spot nx ny nz m (zmul (-1) s)) as [[? ?] ?], (spot nx ny nz m s) as [[? ?] ?]. cbn in SM |- *. destruct SM as (-> & -> & ->). change (inject_Z (-1)) with (-(1))%Q. ring. }
    assert (P2 : (norm2 (vtimes (inject_Z (-1)) (spot nx ny nz m s)) == norm2 (spot nx ny nz m s))%Q). { destruct (spot nx ny nz m s) as [[? ?] ?]. cbn [vtimes norm2]. change (inject_Z (-1)) with (-(1))%Q. ring. } lra.
  - exists l, f, g. auto.
Qed.
Print Assumptions C220_opposite.

(** C221: in a grid with steps that enclose no acute angle the box is large enough: the vertices lie no nearer to any
    grid point at all, and every neighbour with a true facet is listed. *)
Theorem C221_reduced nx ny nz m root voronoi u v w : reduced nx ny nz m u v w ->
  voronoi_ok center (cart_positions nx ny nz m) (voronoi (cart_positions nx ny nz m)) ->
  exists l, point_neighbor_voronoi_transforms nx ny nz m root voronoi = Some l /\
    (forall f x, In f l -> In x (f_vertices f) -> (dist2 x origin == dist2 x (spot nx ny nz m (f_shift f)))%Q /\ forall t, closer nx ny nz m x t) /\
    (forall t x, t <> (0, 0, 0) -> (dist2 x origin == dist2 x (spot nx ny nz m t))%Q -> (forall s, s <> (0, 0, 0) -> s <> t -> strictly nx ny nz m x s) ->
       exists f, In f l /\ f_shift f = t).
Proof.
  intros R OK. destruct (C220_listed nx ny nz m root voronoi OK) as (l & E & A & B). exists l. split; [exact E|]. split.
  - intros f x F X. destruct (A f F) as (_ & _ & _ & _ & _ & K). destruct (K x X) as [K1 K2]. split; [exact K1|]. now apply (cell_all nx ny nz m u v w).
  - intros t x NZ EQ ST. apply (B t x); auto. destruct (T_all nx ny nz m u v w R t) as (q & Q).
    destruct (strict_all nx ny nz m u v w R x t (fun s _ => ST s) q) as [C|[C|C]]; [congruence|exact C|]. rewrite Q in C. pose proof (closer_dot nx ny nz m x t). lra.
Qed.
Print Assumptions C221_reduced.
(** Grids with perpendicular axes are of that kind. *)
Lemma spot_dot nx ny nz a b c i j k i' j' k' : (dot a b == 0)%Q -> (dot a c == 0)%Q -> (dot b c == 0)%Q ->
  (dot (spot nx ny nz (a, b, c) (i, j, k)) (spot nx ny nz (a, b, c) (i', j', k')) ==
   inject_Z (i * i') * (/ inject_Z nx * / inject_Z nx * norm2 a) + inject_Z (j * j') * (/ inject_Z ny * / inject_Z ny * norm2 b) + inject_Z (k * k') * (/ inject_Z nz * / inject_Z nz * norm2 c))%Q.
Proof.
  destruct a as [[m1 m2] m3], b as [[m4 m5] m6], c as [[m7 m8] m9]. intros O1 O2 O3. rewrite !inject_Z_mult. cbn in *. unfold Qdiv. set (x := / inject_Z nx) in *. set (y := / inject_Z ny) in *. set (z := / inject_Z nz) in *. set (p := inject_Z i). set (q := inject_Z j). set (r := inject_Z k). set (p' := inject_Z i'). set (q' := inject_Z j'). set (r' := inject_Z k').
  transitivity (p * p' * (x * x * (m1 * m1 + m2 * m2 + m3 * m3)) + q * q' * (y * y * (m4 * m4 + m5 * m5 + m6 * m6)) + r * r' * (z * z * (m7 * m7 + m8 * m8 + m9 * m9))
    + (p * q' + q * p') * x * y * (m1 * m4 + m2 * m5 + m3 * m6) + (p * r' + r * p') * x * z * (m1 * m7 + m2 * m8 + m3 * m9) + (q * r' + r * q') * y * z * (m4 * m7 + m5 * m8 + m6 * m9))%Q; [ring|]. rewrite O1, O2, O3. ring.
Qed.
Lemma sqr_nonneg q v : (0 <= q * q * norm2 v)%Q.
Proof. destruct v as [[a b] c]. cbn. assert (H : forall r : Q, (0 <= r * r)%Q) by (intros r; destruct (Qlt_le_dec r 0); nra). pose proof (H (q * a)%Q). pose proof (H (q * b)%Q). pose proof (H (q * c)%Q). nra. Qed.
Theorem C221_orthogonal nx ny nz m : (let '(a, b, c) := m in dot a b == 0 /\ dot a c == 0 /\ dot b c == 0)%Q -> reduced nx ny nz m (1, 0, 0) (0, 1, 0) (0, 0, 1).
Proof.
  destruct m as [[a b] c]. intros (O1 & O2 & O3). pose proof (sqr_nonneg (/ inject_Z nx) a) as S1. pose proof (sqr_nonneg (/ inject_Z ny) b) as S2. pose proof (sqr_nonneg (/ inject_Z nz) c) as S3. constructor.
  - intros [[i j] k]. exists i, j, k. cbn [zadd zmul]. apply f_equal2; [apply f_equal2|]; lia.
  - rewrite spot_dot by assumption. cbn [Z.mul]. change (inject_Z 0) with 0%Q. lra.
  - rewrite spot_dot by assumption. cbn [Z.mul]. change (inject_Z 0) with 0%Q. lra.
  - rewrite spot_dot by assumption. cbn [Z.mul]. change (inject_Z 0) with 0%Q. lra.
  - cbn [zadd Z.add]. intros s [<-|[<-|[<-|[]]]]; rewrite spot_dot by assumption; cbn [Z.mul Pos.mul]; change (inject_Z 0) with 0%Q; change (inject_Z 1) with 1%Q; lra.
  - cbn [zadd Z.add In]. intros s H. repeat destruct H as [<-|H]; cbn [box]; lia.
Qed.
Print Assumptions C221_orthogonal.

(** C222: in a skew cell a neighbour with a true facet can be left out, whatever the Voronoi construction returns. *)
Definition skew : mat := ((1, 0, 0), (5, 1, 0), (0, 0, 1))%Q.
Theorem C222_skew_refuted : exists m t x, t <> (0, 0, 0) /\ (dist2 x origin == dist2 x (spot 1 1 1 m t))%Q /\ (forall s, s <> (0, 0, 0) -> s <> t -> strictly 1 1 1 m x s) /\
  forall root voronoi l f, point_neighbor_voronoi_transforms 1 1 1 m root voronoi = Some l -> In f l -> f_shift f <> t.
Proof.
  exists skew, (-5, 1, 0), (0, 1 # 2, 0)%Q. split; [discriminate|]. split; [reflexivity|]. split.
  - intros [[i j] k] NZ NT. apply strictly_iff. unfold spot, skew, dot, norm2, vmat. change (inject_Z 1) with 1%Q.
    setoid_replace (2 * (0 * (inject_Z i / 1 * 1 + inject_Z j / 1 * 5 + inject_Z k / 1 * 0) + (1 # 2) * (inject_Z i / 1 * 0 + inject_Z j / 1 * 1 + inject_Z k / 1 * 0) + 0 * (inject_Z i / 1 * 0 + inject_Z j / 1 * 0 + inject_Z k / 1 * 1)))%Q with (inject_Z j) by field.
    setoid_replace ((inject_Z i / 1 * 1 + inject_Z j / 1 * 5 + inject_Z k / 1 * 0) * (inject_Z i / 1 * 1 + inject_Z j / 1 * 5 + inject_Z k / 1 * 0) + (inject_Z i / 1 * 0 + inject_Z j / 1 * 1 + inject_Z k / 1 * 0) * (inject_Z i / 1 * 0 + inject_Z j / 1 * 1 + inject_Z k / 1 * 0) + (inject_Z i / 1 * 0 + inject_Z j / 1 * 0 + inject_Z k / 1 * 1) * (inject_Z i / 1 * 0 + inject_Z j / 1 * 0 + inject_Z k / 1 * 1))%Q with (inject_Z ((i + 5 * j) * (i + 5 * j) + j * j + k * k)).
    + rewrite <- Zlt_Qlt. destruct (Z.eq_dec (i + 5 * j) 0) as [E|E].
      * destruct (Z.eq_dec k 0) as [->|K]; [|nia]. assert (j <> 0) by (intros ->; apply NZ; apply f_equal2; [apply f_equal2|]; lia). assert (j <> 1) by (intros ->; apply NT; apply f_equal2; [apply f_equal2|]; lia). nia.
      * generalize dependent (i + 5 * j). intros a A. assert (1 <= a * a) by nia. assert (j <= j * j) by nia. assert (0 <= k * k) by nia. lia.
    + rewrite !inject_Z_plus, !inject_Z_mult, !inject_Z_plus, !inject_Z_mult. change (inject_Z 5) with 5%Q. field.
  - intros root voronoi l f E I S. unfold point_neighbor_voronoi_transforms in E. remember (filter has_center (voronoi (cart_positions 1 1 1 skew))) as rs. clear Heqrs. revert l E I. induction rs as [|r rs IH]; intros l E I; [injection E as <-; contradiction|]. cbn [map_opt] in E. destruct (of_ridge 1 1 1 skew root r) as [g|] eqn:G; [|discriminate]. destruct (map_opt (of_ridge 1 1 1 skew root) rs) as [l'|]; [|discriminate]. injection E as <-. destruct I as [->|I]; [|now apply (IH l')].
    destruct r as [[p q] vs]. unfold of_ridge in G. destruct (filter _ [p; q]) as [|n ?]; [discriminate|]. destruct (facet_area root vs); [|discriminate]. cbn [obnd] in G. destruct (nth_error voxel_positions n) as [t|] eqn:N; [|discriminate]. cbn [obnd] in G. destruct (nth_error (cart_positions 1 1 1 skew) n); [|discriminate]. injection G as <-. cbn [f_shift] in S. apply nth_error_In, positions_in in N. subst t. cbn in N. lia.
Qed.
Print Assumptions C222_skew_refuted.

(** ** C223: the area *)
(** A polygon in a plane with normal [n], every three of its corners in the same sense of rotation. *)
Definition turns (n a b c : vec) (t : Q) : Prop := veq (cross (vsub b a) (vsub c a)) (vtimes t n).
Definition convex (n : vec) (l : list vec) : Prop :=
  forall i j k a b c, (i < j < k)%nat -> nth_error l i = Some a -> nth_error l j = Some b -> nth_error l k = Some c -> exists t, (0 <= t)%Q /\ turns n a b c t.
(** Twice the vector area: the sum of the cross products along the border. *)
Fixpoint border (l : list vec) (first : vec) : vec :=
  match l with [] => origin | [a] => cross a first | a :: ((b :: _) as r) => vplus (cross a b) (border r first) end.
Definition around (l : list vec) : vec := match l with [] => origin | a :: _ => border l a end.

(** A square root that is off by at most [e] for the triangles of the polygon, [r] being the length of the normal. *)
Definition root_near (e r : Q) (root : Q -> Q) (n : vec) (l : list vec) : Prop :=
  forall a b c t, In a l -> In b l -> In c l -> (0 <= t)%Q -> turns n a b c t -> (- e <= root (norm2 (cross (vsub b a) (vsub c a))) - t * r <= e)%Q.
Definition count (l : list vec) : Q := inject_Z (Z.of_nat (List.length l)).
Lemma fan_near e r root n p0 : (0 <= e)%Q -> forall l p1 area,
  (forall a b l1 l2, p1 :: l = l1 ++ a :: b :: l2 -> exists t, (0 <= t)%Q /\ turns n p0 a b t /\ (- e <= root (norm2 (cross (vsub a p0) (vsub b p0))) - t * r <= e)%Q) ->
  exists tau, (0 <= tau)%Q /\ (- (count l * e) <= 2 * (fan root p0 (p1 :: l) area - area) - tau * r <= count l * e)%Q /\ veq (vplus (cross p0 p1) (border (p1 :: l) p0)) (vtimes tau n).
Proof.
  intros E0. induction l as [|p2 l IH]; intros p1 area H.
  - exists 0%Q. split; [lra|]. split; [unfold count; cbn [List.length fan Z.of_nat]; change (inject_Z 0) with 0%Q; lra|]. cbn [border]. destruct p0 as [[? ?] ?], p1 as [[? ?] ?], n as [[? ?] ?]. cbn. repeat split; ring.
  - destruct (H p1 p2 [] l eq_refl) as (t & T0 & TU & TR). destruct (IH p2 (area + root (norm2 (cross (vsub p1 p0) (vsub p2 p0))) / 2)%Q) as (tau & P & B & V); [intros a b l1 l2 EQ; apply (H a b (p1 :: l1) l2); now rewrite EQ|].
    exists (t + tau)%Q. split; [lra|]. split.
    + set (c := root (norm2 (cross (vsub p1 p0) (vsub p2 p0)))) in *. change (fan root p0 (p1 :: p2 :: l) area) with (fan root p0 (p2 :: l) (area + c / 2)%Q). unfold count in *. cbn [List.length]. rewrite Nat2Z.inj_succ, <- Z.add_1_r, inject_Z_plus. change (inject_Z 1) with 1%Q.
      set (F := fan root p0 (p2 :: l) _) in *. assert (C2 : (c / 2 == c * (1 # 2))%Q) by reflexivity. rewrite C2 in B. set (k := inject_Z _) in *. assert (KE : ((k + 1) * e == k * e + e)%Q) by ring. rewrite KE. assert (TT : ((t + tau) * r == t * r + tau * r)%Q) by ring. rewrite TT. lra.
    + change (border (p1 :: p2 :: l) p0) with (vplus (cross p1 p2) (border (p2 :: l) p0)). unfold turns in TU. destruct (border (p2 :: l) p0) as [[b1 b2] b3]. destruct p0 as [[a1 a2] a3], p1 as [[c1 c2] c3], p2 as [[d1 d2] d3], n as [[n1 n2] n3]. cbn in TU, V |- *. destruct TU as (U1 & U2 & U3), V as (V1 & V2 & V3). repeat split; lra.
Qed.
(** The product of two edges is perpendicular to both, and its length is the area they span. *)
Theorem C223_cross a b : (dot a (cross a b) == 0 /\ dot b (cross a b) == 0 /\ norm2 (cross a b) == norm2 a * norm2 b - dot a b * dot a b)%Q /\ veq (cross b a) (vtimes (-1) (cross a b)).
Proof. destruct a as [[? ?] ?], b as [[? ?] ?]. cbn. repeat split; ring. Qed.
Print Assumptions C223_cross.
(** C223: for a flat convex facet the area is half the length of the sum of the cross products along its border. *)
Theorem C223_area e r root n l : (0 <= e)%Q -> l <> [] -> convex n l -> root_near e r root n l ->
  exists A tau, facet_area root l = Some A /\ (0 <= tau)%Q /\ veq (around l) (vtimes tau n) /\ (- (count l * e) <= 2 * A - tau * r <= count l * e)%Q.
Proof.
  intros E0 NE CV RN. destruct l as [|p0 [|p1 l]]; [congruence| |].
  - exists 0%Q, 0%Q. split; [reflexivity|]. split; [lra|]. split; [destruct p0 as [[? ?] ?], n as [[? ?] ?]; cbn; repeat split; ring|]. unfold count. cbn [List.length Z.of_nat Pos.of_succ_nat]. change (inject_Z 1) with 1%Q. lra.
  - destruct (fan_near e r root n p0 E0 l p1 0%Q) as (tau & P & B & V).
    + intros a b l1 l2 EQ. destruct (CV 0%nat (S (List.length l1)) (S (S (List.length l1))) p0 a b) as (t & T0 & TU); [lia|reflexivity| | |].
      * rewrite EQ. cbn [nth_error]. rewrite nth_error_app2 by lia. now rewrite Nat.sub_diag.
      * rewrite EQ. change (nth_error (l1 ++ a :: b :: l2) (S (List.length l1)) = Some b). rewrite nth_error_app2 by lia. replace (S (List.length l1) - List.length l1)%nat with 1%nat by lia. reflexivity.
      * exists t. split; [exact T0|]. split; [exact TU|]. apply RN; [now left| | |exact T0|exact TU]; right; rewrite EQ; apply in_app_iff; right; [now left|right; now left].
    + exists (fan root p0 (p1 :: l) 0%Q), tau. split; [reflexivity|]. split; [exact P|]. split; [exact V|].
      assert (KL : (count (p0 :: p1 :: l) == count l + 2)%Q). { unfold count. cbn [List.length]. rewrite !Nat2Z.inj_succ. unfold Z.succ. rewrite !inject_Z_plus. change (inject_Z 1) with 1%Q. ring. } rewrite KL. assert (KE : ((count l + 2) * e == count l * e + 2 * e)%Q) by ring. rewrite KE. lra.
Qed.
Print Assumptions C223_area.
(** It does not matter with which corner the facet begins. *)
Lemma border_app l r f : r <> [] -> l <> [] -> veq (border (l ++ r) f) (vplus (border l (hd origin r)) (border r f)).
Proof.
  intros R L. induction l as [|a l IH]; [congruence|]. destruct l as [|b l].
  - cbn [app]. destruct r as [|c r]; [congruence|]. cbn [hd]. change (border (a :: c :: r) f) with (vplus (cross a c) (border (c :: r) f)). apply veq_refl.
  - change (border ((a :: b :: l) ++ r) f) with (vplus (cross a b) (border ((b :: l) ++ r) f)). change (border (a :: b :: l) (hd origin r)) with (vplus (cross a b) (border (b :: l) (hd origin r))). specialize (IH ltac:(discriminate)). destruct (border ((b :: l) ++ r) f) as [[? ?] ?], (border (b :: l) (hd origin r)) as [[? ?] ?], (border r f) as [[? ?] ?], (cross a b) as [[? ?] ?]. cbn in *. destruct IH as (I1 & I2 & I3). repeat split; lra.
Qed.
Lemma around_rot l r : veq (around (l ++ r)) (around (r ++ l)).
Proof.
  destruct l as [|a l]; [rewrite app_nil_r; apply veq_refl|]. destruct r as [|b r]; [rewrite app_nil_r; apply veq_refl|].
  change (around ((a :: l) ++ b :: r)) with (border ((a :: l) ++ b :: r) a). change (around ((b :: r) ++ a :: l)) with (border ((b :: r) ++ a :: l) b).
  pose proof (border_app (a :: l) (b :: r) a ltac:(discriminate) ltac:(discriminate)) as H1. pose proof (border_app (b :: r) (a :: l) b ltac:(discriminate) ltac:(discriminate)) as H2. cbn [hd] in *.
  destruct (border ((a :: l) ++ b :: r) a) as [[? ?] ?], (border ((b :: r) ++ a :: l) b) as [[? ?] ?], (border (a :: l) b) as [[? ?] ?], (border (b :: r) a) as [[? ?] ?]. cbn in *. destruct H1 as (? & ? & ?), H2 as (? & ? & ?). repeat split; lra.
Qed.
Lemma turns_cycle n a b c t : turns n a b c t -> turns n b c a t.
Proof. unfold turns. destruct a as [[? ?] ?], b as [[? ?] ?], c as [[? ?] ?], n as [[? ?] ?]. cbn. intros (A & B & C). repeat split; [rewrite <- A|rewrite <- B|rewrite <- C]; ring. Qed.
Lemma convex_rot n l r : convex n (l ++ r) -> convex n (r ++ l).
Proof.
  intros C i j k a b c L A B D.
  assert (P : forall i x, nth_error (r ++ l) i = Some x -> (i < List.length r /\ nth_error (l ++ r) (List.length l + i) = Some x \/ List.length r <= i /\ nth_error (l ++ r) (i - List.length r) = Some x /\ i - List.length r < List.length l)%nat).
  { intros i0 x E. destruct (Nat.lt_ge_cases i0 (List.length r)) as [H|H].
    - left. split; [exact H|]. rewrite nth_error_app1 in E by exact H. rewrite nth_error_app2 by lia. now replace (List.length l + i0 - List.length l)%nat with i0 by lia.
    - right. rewrite nth_error_app2 in E by exact H. assert (K : (i0 - List.length r < List.length l)%nat) by (apply nth_error_Some; congruence). split; [exact H|]. split; [|exact K]. now rewrite nth_error_app1 by exact K. }
  destruct (P _ _ A) as [[A1 A2]|(A1 & A2 & A3)], (P _ _ B) as [[B1 B2]|(B1 & B2 & B3)], (P _ _ D) as [[D1 D2]|(D1 & D2 & D3)]; try lia.
  - apply (C _ _ _ _ _ _) with (2 := A2) (3 := B2) (4 := D2). lia.
  - destruct (C (k - List.length r) (List.length l + i) (List.length l + j) c a b)%nat as (t & T0 & TU); [lia|assumption..|]. exists t. split; [exact T0|]. now apply turns_cycle.
  - destruct (C (j - List.length r) (k - List.length r) (List.length l + i) b c a)%nat as (t & T0 & TU); [lia|assumption..|]. exists t. split; [exact T0|]. now apply turns_cycle, turns_cycle.
  - apply (C _ _ _ _ _ _) with (2 := A2) (3 := B2) (4 := D2). lia.
Qed.
Theorem C223_start e r root n l1 l2 A B : (0 <= e)%Q -> ~ (norm2 n == 0)%Q -> convex n (l1 ++ l2) -> root_near e r root n (l1 ++ l2) ->
  facet_area root (l1 ++ l2) = Some A -> facet_area root (l2 ++ l1) = Some B -> (- (count (l1 ++ l2) * e) <= A - B <= count (l1 ++ l2) * e)%Q.
Proof.
  intros E0 N0 CV RN FA FB. assert (NE : l1 ++ l2 <> []) by (destruct (l1 ++ l2); [discriminate|congruence]). assert (NE2 : l2 ++ l1 <> []) by (destruct (l2 ++ l1); [discriminate|congruence]).
  destruct (C223_area e r root n _ E0 NE CV RN) as (A' & tau & EA & P & V & K). destruct (C223_area e r root n (l2 ++ l1) E0 NE2 (convex_rot _ _ _ CV)) as (B' & tau' & EB & P' & V' & K').
  { intros a b c t Ha Hb Hc. apply RN; apply in_app_iff; [apply in_app_iff in Ha|apply in_app_iff in Hb|apply in_app_iff in Hc]; tauto. }
  rewrite FA in EA. injection EA as <-. rewrite FB in EB. injection EB as <-. assert (CL : count (l2 ++ l1) = count (l1 ++ l2)) by (unfold count; now rewrite !app_length, Nat.add_comm). rewrite CL in K'.
  assert (TE : (tau == tau')%Q).
  { pose proof (around_rot l1 l2) as AR. destruct (around (l1 ++ l2)) as [[? ?] ?], (around (l2 ++ l1)) as [[? ?] ?], n as [[n1 n2] n3]. cbn in *. destruct V as (V1 & V2 & V3), V' as (W1 & W2 & W3), AR as (R1 & R2 & R3).
    assert (D1 : ((tau - tau') * n1 == 0)%Q) by lra. assert (D2 : ((tau - tau') * n2 == 0)%Q) by lra. assert (D3 : ((tau - tau') * n3 == 0)%Q) by lra.
    destruct (Qeq_dec (tau - tau') 0) as [Z0|Z0]; [lra|]. exfalso. apply N0. apply Qmult_integral in D1, D2, D3. destruct D1 as [D1|D1]; [contradiction|]. destruct D2 as [D2|D2]; [contradiction|]. destruct D3 as [D3|D3]; [contradiction|]. rewrite D1, D2, D3. reflexivity. }
  assert (TR : (tau * r == tau' * r)%Q) by (rewrite TE; reflexivity). lra.
Qed.
Print Assumptions C223_start.

(** ** Examples *)
Definition hexagonal : mat := ((1, 0, 0), (- (1 # 2), 7 # 8, 0), (0, 0, 1))%Q.
Definition fcc : mat := ((0, 1, 1), (1, 0, 1), (1, 1, 0))%Q.
Ltac reduce := constructor; [intros [[i j] k]| | | | |]; [|vm_compute; discriminate|vm_compute; discriminate|vm_compute; discriminate|cbn [In]; intros s H; repeat destruct H as [<-|H]; [vm_compute; discriminate..|contradiction]|cbn [In]; intros s H; repeat destruct H as [<-|H]; [cbn; lia..|contradiction]].
Example C221_hexagonal : reduced 4 4 8 hexagonal (1, 0, 0) (0, 1, 0) (0, 0, 1).
Proof. reduce. exists i, j, k. cbn [zadd zmul]. apply f_equal2; [apply f_equal2|]; lia. Qed.
Example C221_fcc : reduced 10 10 10 fcc (1, 0, 0) (0, -1, 0) (-1, 0, 1).
Proof. reduce. exists (i + k), (- j), k. cbn [zadd zmul]. apply f_equal2; [apply f_equal2|]; lia. Qed.
Definition root0 (q : Q) : Q := (inject_Z (Z.sqrt (Qnum q * QDen q)) / inject_Z (QDen q))%Q.
Definition half : Q := 1 # 2.
Definition square : list vec := [(half, half, half); (half, - half, half); (half, - half, - half); (half, half, - half)]%Q.
Example C223_ex : (exists A, facet_area root0 square = Some A /\ A == 1)%Q /\ convex (1, 0, 0)%Q square /\ root_near 0 1 root0 (1, 0, 0)%Q square.
Proof.
  split; [eexists; split; [reflexivity|vm_compute; reflexivity]|]. split.
  - intros i j k a b c L A B C. assert (k < 4)%nat by (change 4%nat with (List.length square); apply nth_error_Some; congruence).
    assert (D : (i, j, k) = (0, 1, 2)%nat \/ (i, j, k) = (0, 1, 3)%nat \/ (i, j, k) = (0, 2, 3)%nat \/ (i, j, k) = (1, 2, 3)%nat) by (destruct k as [|[|[|[|]]]]; [lia|lia| | |lia]; destruct j as [|[|[|]]]; try lia; destruct i as [|[|]]; try lia; auto).
    destruct D as [D|[D|[D|D]]]; injection D as -> -> ->; injection A as <-; injection B as <-; injection C as <-; exists 1%Q; (split; [discriminate|]); vm_compute; auto.
  - intros a b c t A B C T TU. unfold turns in TU.
    assert (E : forallb (fun a => forallb (fun b => forallb (fun c => let n := cross (vsub b a) (vsub c a) in negb (Qle_bool 0 (fst (fst n))) || Qeq_bool (root0 (norm2 n)) (fst (fst n))) square) square) square = true) by (vm_compute; reflexivity).
    rewrite forallb_forall in E. specialize (E a ltac:(assumption)). rewrite forallb_forall in E. specialize (E b ltac:(assumption)). rewrite forallb_forall in E. specialize (E c ltac:(assumption)).
    cbv zeta in E. destruct (cross (vsub b a) (vsub c a)) as [[n1 n2] n3]. cbn [fst] in E. cbn in TU. destruct TU as (U1 & _ & _). apply orb_true_iff in E. destruct E as [E|E].
    + apply negb_true_iff in E. exfalso. assert (Q1 : Qle_bool 0 n1 = true) by (apply Qle_bool_iff; lra). congruence.
    + apply Qeq_bool_eq in E. rewrite E. lra.
Qed.
(** The unit cube: a Voronoi construction with its six facets satisfies what is asked. *)
Definition cubic : mat := ((1, 0, 0), (0, 1, 0), (0, 0, 1))%Q.
Definition four (f : Q -> Q -> vec) : list vec := [f half half; f half (- half)%Q; f (- half)%Q (- half)%Q; f (- half)%Q half].
Definition six (_ : list vec) : list ((nat * nat) * list vec) :=
  [((62, 87)%nat, four (fun a b => (half, a, b))); ((37, 62)%nat, four (fun a b => (- half, a, b)%Q)); ((62, 67)%nat, four (fun a b => (a, half, b)));
   ((62, 57)%nat, four (fun a b => (a, - half, b)%Q)); ((63, 62)%nat, four (fun a b => (a, b, half))); ((62, 61)%nat, four (fun a b => (a, b, - half)%Q))].
Definition ridge_check (sites : list vec) (r : (nat * nat) * list vec) : bool :=
  let '((p, q), vs) := r in negb (Nat.eqb p q) && negb (is_nil vs) &&
  match nth_error sites p, nth_error sites q with
  | Some a, Some b => forallb (fun x => Qeq_bool (dist2 x a) (dist2 x b) && forallb (fun s => Qle_bool (dist2 x a) (dist2 x s)) sites) vs
  | _, _ => false
  end.
Lemma index_of q i j k : nth_error voxel_positions q = Some (i, j, k) -> Z.of_nat q = 25 * (i + 2) + 5 * (j + 2) + k + 2.
Proof.
  intros E. assert (L : (q < 125)%nat) by (change 125%nat with (List.length voxel_positions); apply nth_error_Some; congruence).
  assert (C : forallb (fun q => match nth_error voxel_positions q with Some (i, j, k) => Z.of_nat q =? 25 * (i + 2) + 5 * (j + 2) + k + 2 | None => false end) (seq 0 125) = true) by (vm_compute; reflexivity).
  rewrite forallb_forall in C. specialize (C q ltac:(apply in_seq; lia)). rewrite E in C. lia.
Qed.
Example C220_cubic : voronoi_ok center (cart_positions 1 1 1 cubic) (six (cart_positions 1 1 1 cubic)).
Proof.
  split.
  - intros p q vs I _. assert (C : forallb (ridge_check (cart_positions 1 1 1 cubic)) (six []) = true) by (vm_compute; reflexivity). rewrite forallb_forall in C. specialize (C _ I). unfold ridge_check in C.
    rewrite !andb_true_iff, !negb_true_iff in C. destruct C as [[C1 C2] C3]. apply Nat.eqb_neq in C1. split; [exact C1|]. split; [now destruct vs|]. destruct (nth_error _ p) as [a|]; [|discriminate]. destruct (nth_error _ q) as [b|]; [|discriminate]. exists a, b. split; [reflexivity|]. split; [reflexivity|].
    intros x X. rewrite forallb_forall in C3. specialize (C3 x X). apply andb_true_iff in C3. destruct C3 as [C3 C4]. split; [now apply Qeq_bool_eq|]. intros s S. rewrite forallb_forall in C4. now apply Qle_bool_iff, C4.
  - intros q a b x A B N EQ ST. rewrite site_at in A, B. rewrite center_at in A. destruct (nth_error voxel_positions q) as [[[i j] k]|] eqn:Q; [|discriminate]. assert (a = spot 1 1 1 cubic (0, 0, 0)) as -> by (cbn [option_map] in A; congruence). assert (b = spot 1 1 1 cubic (i, j, k)) as -> by (cbn [option_map] in B; congruence).
    assert (BX : box (i, j, k)) by (apply positions_in; eapply nth_error_In; exact Q). pose proof (index_of _ _ _ _ Q) as IX. rewrite center_eq in *.
    destruct x as [[x y] z].
    assert (V : forall i j k, (dist2 (x, y, z) (spot 1 1 1 cubic (i, j, k)) == (x - inject_Z i) * (x - inject_Z i) + (y - inject_Z j) * (y - inject_Z j) + (z - inject_Z k) * (z - inject_Z k))%Q).
    { intros i' j' k'. unfold dist2, spot, cubic. cbn [vmat vsub norm2]. change (inject_Z 1) with 1%Q. field. }
    assert (S : forall i' j' k', box (i', j', k') -> (i', j', k') <> (0, 0, 0) -> (i', j', k') <> (i, j, k) -> (2 * (x * inject_Z i' + y * inject_Z j' + z * inject_Z k') < inject_Z (i' * i' + j' * j' + k' * k'))%Q).
    { intros i' j' k' BB NZ NT. apply positions_in, In_nth_error in BB as (r & R). assert (L : (dist2 (x, y, z) (spot 1 1 1 cubic (0, 0, 0)%Z) < dist2 (x, y, z) (spot 1 1 1 cubic (i', j', k')%Z))%Q).
      { apply (ST r); [now rewrite site_at, R| |]; intros ->; [rewrite <- center_eq, center_at in R|]; congruence. }
      rewrite !V in L. rewrite !inject_Z_plus, !inject_Z_mult. change (inject_Z 0) with 0%Q in L. nra. }
    assert (EI : (2 * (x * inject_Z i + y * inject_Z j + z * inject_Z k) == inject_Z (i * i + j * j + k * k))%Q).
    { rewrite !V in EQ. rewrite !inject_Z_plus, !inject_Z_mult. change (inject_Z 0) with 0%Q in EQ. nra. }
    assert (SP : forall a b c, box (a, b, c) -> box (i - a, j - b, k - c) -> (a, b, c) <> (0, 0, 0) -> (a, b, c) <> (i, j, k) -> a * (i - a) + b * (j - b) + c * (k - c) < 0).
    { intros a b c B1 B2 N1 N2. pose proof (S a b c B1 N1 N2) as S1. assert (S2 := S (i - a) (j - b) (k - c) B2).
      assert (N3 : (i - a, j - b, k - c) <> (0, 0, 0)) by (intros E; apply N2; injection E; intros; apply f_equal2; [apply f_equal2|]; lia). assert (N4 : (i - a, j - b, k - c) <> (i, j, k)) by (intros E; apply N1; injection E; intros; apply f_equal2; [apply f_equal2|]; lia).
      specialize (S2 N3 N4). unfold Z.sub in S2. rewrite (inject_Z_plus i), (inject_Z_plus j), (inject_Z_plus k), !inject_Z_opp in S2.
      assert (L : (inject_Z (i * i + j * j + k * k) < inject_Z (a * a + b * b + c * c) + inject_Z ((i + - a) * (i + - a) + (j + - b) * (j + - b) + (k + - c) * (k + - c)))%Q) by lra. rewrite <- inject_Z_plus in L. rewrite <- Zlt_Qlt in L. lia. }
    assert (NZ : (i, j, k) <> (0, 0, 0)) by (intros E; injection E as -> -> ->; lia). unfold box in *.
    assert (ONE : In (i, j, k) [(1, 0, 0); (-1, 0, 0); (0, 1, 0); (0, -1, 0); (0, 0, 1); (0, 0, -1)]).
    { assert (G : forall a b c, -1 <= a <= 1 -> -1 <= b <= 1 -> -1 <= c <= 1 -> -2 <= i - a <= 2 -> -2 <= j - b <= 2 -> -2 <= k - c <= 2 -> (a, b, c) <> (0, 0, 0) -> 0 <= a * (i - a) + b * (j - b) + c * (k - c) -> (a, b, c) = (i, j, k)).
      { intros a b c ? ? ? ? ? ? ? ?. destruct (Z.eq_dec a i), (Z.eq_dec b j), (Z.eq_dec c k); [now subst|..]; exfalso; (assert (a * (i - a) + b * (j - b) + c * (k - c) < 0) by (apply SP; [lia|lia|assumption|congruence]); lia). }
      cbn [In]. destruct (Z.lt_trichotomy i 0) as [I|[I|I]]; [pose proof (G (-1) 0 0 ltac:(lia) ltac:(lia) ltac:(lia) ltac:(lia) ltac:(lia) ltac:(lia) ltac:(discriminate) ltac:(lia)); auto 8| |pose proof (G 1 0 0 ltac:(lia) ltac:(lia) ltac:(lia) ltac:(lia) ltac:(lia) ltac:(lia) ltac:(discriminate) ltac:(lia)); auto 8].
      destruct (Z.lt_trichotomy j 0) as [J|[J|J]]; [pose proof (G 0 (-1) 0 ltac:(lia) ltac:(lia) ltac:(lia) ltac:(lia) ltac:(lia) ltac:(lia) ltac:(discriminate) ltac:(lia)); auto 8| |pose proof (G 0 1 0 ltac:(lia) ltac:(lia) ltac:(lia) ltac:(lia) ltac:(lia) ltac:(lia) ltac:(discriminate) ltac:(lia)); auto 8].
      destruct (Z.lt_trichotomy k 0) as [K|[K|K]]; [pose proof (G 0 0 (-1) ltac:(lia) ltac:(lia) ltac:(lia) ltac:(lia) ltac:(lia) ltac:(lia) ltac:(discriminate) ltac:(lia)); auto 8| |pose proof (G 0 0 1 ltac:(lia) ltac:(lia) ltac:(lia) ltac:(lia) ltac:(lia) ltac:(lia) ltac:(discriminate) ltac:(lia)); auto 8]. subst. now destruct NZ. }
    cbn [In] in ONE. repeat destruct ONE as [ONE|ONE]; [..|contradiction]; injection ONE as <- <- <-;
      [replace q with 87%nat by lia|replace q with 37%nat by lia|replace q with 67%nat by lia|replace q with 57%nat by lia|replace q with 63%nat by lia|replace q with 61%nat by lia]; eexists; unfold six; cbn [In]; intuition eauto 10.
Qed.
Example C220_ex : option_map (map f_shift) (point_neighbor_voronoi_transforms 1 1 1 cubic root0 six) = Some [(1, 0, 0); (-1, 0, 0); (0, 1, 0); (0, -1, 0); (0, 0, 1); (0, 0, -1)].
Proof. vm_compute. reflexivity. Qed.
