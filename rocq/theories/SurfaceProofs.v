From Verif Require Import Base GridModel GridProofs NeighModel NeighSpec ChargeModel ChargeProofs LabelsModel NearModel NearSpec NearProofs SurfaceModel.
From Coq Require Import ZifyBool ZifyNat Lqa.

Lemma nth_repeat_in {A} (a d : A) m l : (l < m)%nat -> nth l (repeat a m) d = a.
Proof. revert l. induction m as [|m IH]; intros [|l] H; cbn; try lia; [reflexivity|apply IH; lia]. Qed.

(** ** Written volumes *)
Lemma isin_spec l x : np_isin l x = true <-> In x l.
Proof.
  unfold np_isin. rewrite existsb_exists. split; [intros (y & H & E); apply Z.eqb_eq in E; now subst|].
  intros H. exists x. split; [exact H|apply Z.eqb_refl].
Qed.
Lemma written_in data labels indices b f : In (b, f) (write_volumes data labels indices) ->
  In b indices /\ forall i j k, (labels i j k = b -> f i j k = data i j k) /\ (labels i j k <> b -> f i j k = 0%Q).
Proof.
  intros H. apply in_map_iff in H as (b' & [= <- <-] & H). split; [exact H|]. intros i j k.
  destruct (labels i j k =? b') eqn:E; cbn; split; intros; try reflexivity; lia.
Qed.
Lemma written_sum data labels indices i j k : NoDup indices ->
  (qsum (map (fun bf : Z * arr3 Q => snd bf i j k) (write_volumes data labels indices)) == write_volumes_sum data labels indices i j k)%Q.
Proof.
  unfold write_volumes, write_volumes_sum. intros ND. rewrite map_map. cbn [snd].
  induction ND as [|b l H ND IH]; [reflexivity|]. cbn [map]. rewrite qsum_cons, IH. unfold np_isin. cbn [existsb].
  destruct (labels i j k =? b) eqn:E; cbn [negb orb]; [|ring].
  assert (K : existsb (Z.eqb (labels i j k)) l = false).
  { destruct (existsb (Z.eqb (labels i j k)) l) eqn:K; [|reflexivity]. apply isin_spec in K. exfalso. apply H. replace b with (labels i j k) by lia. exact K. }
  rewrite K. cbn [negb]. ring.
Qed.
Lemma nodup_of_nat l : NoDup l -> NoDup (map Z.of_nat l).
Proof. intros H. apply FinFun.Injective_map_NoDup; [|exact H]. intros a b. lia. Qed.

Lemma species_spec {S} (eqb : S -> S -> bool) data labels symbols s i j k : (forall a b, eqb a b = true <-> a = b) ->
  (0 <= labels i j k /\ nth_error symbols (Z.to_nat (labels i j k)) = Some s -> write_species eqb data labels symbols s i j k = data i j k) /\
  (~ (0 <= labels i j k /\ nth_error symbols (Z.to_nat (labels i j k)) = Some s) -> write_species eqb data labels symbols s i j k = 0%Q).
Proof.
  intros E. unfold write_species. set (ix := map fst _).
  assert (K : In (labels i j k) ix <-> (0 <= labels i j k /\ nth_error symbols (Z.to_nat (labels i j k)) = Some s)).
  { unfold ix. generalize (labels i j k). intros x.
    assert (G : forall syms a, In x (map fst (filter (fun iz : Z * S => eqb (snd iz) s) (combine (map Z.of_nat (seq a (length syms))) syms))) <->
      Z.of_nat a <= x /\ nth_error syms (Z.to_nat (x - Z.of_nat a)) = Some s).
    { induction syms as [|y syms IH]; intros a; cbn [length seq map combine filter].
      - cbn. split; [easy|]. intros [_ H]. destruct (Z.to_nat _); discriminate.
      - cbn [snd]. specialize (IH (Datatypes.S a)). assert (NE : Z.of_nat a < x -> nth_error (y :: syms) (Z.to_nat (x - Z.of_nat a)) = nth_error syms (Z.to_nat (x - Z.of_nat (Datatypes.S a)))).
        { intros H. replace (Z.to_nat (x - Z.of_nat a)) with (Datatypes.S (Z.to_nat (x - Z.of_nat (Datatypes.S a)))) by lia. reflexivity. }
        assert (N0 : x = Z.of_nat a -> nth_error (y :: syms) (Z.to_nat (x - Z.of_nat a)) = Some y).
        { intros ->. rewrite Z.sub_diag. reflexivity. }
        destruct (eqb y s) eqn:EY.
        + apply E in EY. subst y. cbn [map fst In]. rewrite IH. split.
          * intros [<-|[H1 H2]]; [split; [lia|now apply N0]|split; [lia|rewrite NE by lia; exact H2]].
          * intros [H1 H2]. destruct (Z.eq_dec x (Z.of_nat a)) as [->|N]; [now left|right]. split; [lia|]. rewrite <- NE by lia. exact H2.
        + rewrite IH. split.
          * intros [H1 H2]. split; [lia|rewrite NE by lia; exact H2].
          * intros [H1 H2]. destruct (Z.eq_dec x (Z.of_nat a)) as [->|N].
            { rewrite (N0 eq_refl) in H2. injection H2 as ->. assert (eqb s s = true) by now apply E. congruence. }
            split; [lia|]. rewrite <- NE by lia. exact H2. }
    rewrite (G symbols O). cbn. rewrite Z.sub_0_r. reflexivity. }
  split; intros H.
  - apply K, isin_spec in H. rewrite H. reflexivity.
  - destruct (np_isin ix (labels i j k)) eqn:EI; [apply isin_spec, K in EI; contradiction|reflexivity].
Qed.
Lemma all_atoms_total data labels natoms i j k :
  (0 <= labels i j k < Z.of_nat natoms -> (qsum (map (fun bf : Z * arr3 Q => snd bf i j k) (write_all_atoms data labels natoms)) == data i j k)%Q) /\
  (labels i j k < 0 -> (qsum (map (fun bf : Z * arr3 Q => snd bf i j k) (write_all_atoms data labels natoms)) == 0)%Q).
Proof.
  unfold write_all_atoms. rewrite written_sum by apply nodup_of_nat, seq_NoDup. unfold write_volumes_sum. split; intros H.
  - assert (E : np_isin (map Z.of_nat (seq 0 natoms)) (labels i j k) = true).
    { apply isin_spec, in_map_iff. exists (Z.to_nat (labels i j k)). split; [lia|]. apply in_seq. lia. }
    rewrite E. reflexivity.
  - destruct (np_isin _ _) eqn:E; [|reflexivity]. apply isin_spec, in_map_iff in E as (a & E & _). lia.
Qed.
Lemma combine_map {A B C} (f : C -> A) (g : C -> B) l : combine (map f l) (map g l) = map (fun x => (f x, g x)) l.
Proof. induction l; [reflexivity|]. cbn. now f_equal. Qed.
Lemma written_charge nx ny nz data labels vol nb b : (b < nb)%nat ->
  (forall v, in_grid nx ny nz v -> value_at labels v < Z.of_nat nb) ->
  let vs := voxels nx ny nz in
  let r := get_basin_charges_and_volumes (map (value_at data) vs) (map (value_at labels) vs) vol nb in
  forall bs f, In (Z.of_nat b, f) (write_volumes data labels bs) ->
  (nth b (i_charges r) 0 == qsum (map (value_at f) vs) / inject_Z (Z.of_nat (length vs)))%Q.
Proof.
  intros Hb HL vs r bs f Hf. apply written_in in Hf as [_ Hf].
  destruct (integration_exact (map (value_at data) vs) (map (value_at labels) vs) vol nb) as (_ & _ & K & _).
  - now rewrite !map_length.
  - apply Forall_forall. intros x Hx. apply in_map_iff in Hx as (v & <- & Hv). apply HL, in_voxels, Hv.
  - destruct (K b Hb) as [K1 _]. etransitivity; [exact K1|]. rewrite map_length, combine_map, map_map. cbn [fst snd].
    assert (E : (qsum (map (fun v => if value_at labels v =? Z.of_nat b then value_at data v else 0) vs) == qsum (map (value_at f) vs))%Q).
    { apply qsum_map_ext. intros [[i j] k] _. cbn. destruct (Hf i j k) as [F1 F2]. destruct (labels i j k =? Z.of_nat b) eqn:E; [rewrite F1 by lia|rewrite F2 by lia]; reflexivity. }
    rewrite E. reflexivity.
Qed.

(** ** Surface distances *)
Section Surface.
Variables nx ny nz : Z.
Variable root : Q -> Q.
Variable matrix : mat.
Variable labels : arr3 Z.
Variable coords : list vec.
Variable edge : arr3 bool.
Notation n := (length coords).
Notation dist l v := (root (sq_dist nx ny nz matrix (nth l coords (0, 0, 0)%Q) v)).
Definition on_surface (l : nat) (v : Z * Z * Z) : bool := rd edge v && (rd labels v =? Z.of_nat l).

Definition lower (m : Q) (ds : list Q) : Q := fold_left (fun m d => if Qltb d m then d else m) ds m.

Lemma nth_np_add a i x l : 0 <= i < Z.of_nat (length a) -> (l < length a)%nat ->
  nth l (np_add a i x) 0%Q = (if i =? Z.of_nat l then nth l a 0 + x else nth l a 0)%Q.
Proof.
  intros H L. unfold np_add. rewrite np_idx_pos by lia. unfold add_at. rewrite nth_upd.
  destruct (i =? Z.of_nat l) eqn:E; destruct (Nat.eqb (Z.to_nat i) l) eqn:E2; try lia; try reflexivity.
  apply Nat.eqb_eq in E2. rewrite E2. destruct (Nat.ltb l (length a)) eqn:K; [reflexivity|]. apply Nat.ltb_ge in K. lia.
Qed.
Lemma nth_np_low a i x l : 0 <= i < Z.of_nat (length a) -> (l < length a)%nat ->
  nth l (np_low a i x) 0%Q = (if i =? Z.of_nat l then (if Qltb x (nth l a 0) then x else nth l a 0) else nth l a 0)%Q.
Proof.
  intros H L. unfold np_low. rewrite np_idx_pos by lia.
  destruct (i =? Z.of_nat l) eqn:E.
  - assert (Z.to_nat i = l) as -> by lia. destruct (Qltb x (nth l a 0%Q)); [|reflexivity]. rewrite nth_upd, Nat.eqb_refl.
    destruct (Nat.ltb l (length a)) eqn:K; [reflexivity|]. apply Nat.ltb_ge in K. lia.
  - destruct (Qltb x _); [|reflexivity]. rewrite nth_upd. destruct (Nat.eqb (Z.to_nat i) l) eqn:E2; [lia|reflexivity].
Qed.
Lemma np_add_length a i x : length (np_add a i x) = length a.
Proof. unfold np_add. destruct (np_idx _ _); [apply add_at_length|reflexivity]. Qed.
Lemma np_low_length a i x : length (np_low a i x) = length a.
Proof. unfold np_low. destruct (np_idx _ _); [|reflexivity]. destruct (Qltb _ _); [apply upd_length|reflexivity]. Qed.

Lemma surf_fold vs l : (forall v, In v vs -> rd edge v = true -> 0 <= rd labels v < Z.of_nat n) -> (l < n)%nat ->
  forall st, length (u_dists st) = n -> length (u_sums st) = n -> length (u_totals st) = n ->
  let st' := fold_left (surf_step nx ny nz root matrix labels coords edge) vs st in
  let sv := filter (on_surface l) vs in
  length (u_dists st') = n /\ length (u_sums st') = n /\ length (u_totals st') = n /\
  nth l (u_dists st') 0%Q = lower (nth l (u_dists st) 0%Q) (map (fun v => dist l v) sv) /\
  (nth l (u_sums st') 0 == nth l (u_sums st) 0 + qsum (map (fun v => dist l v) sv))%Q /\
  (nth l (u_totals st') 0 == nth l (u_totals st) 0 + inject_Z (Z.of_nat (length sv)))%Q.
Proof.
  intros H L. induction vs as [|v vs IH]; intros st L1 L2 L3; cbn zeta; cbn [fold_left filter].
  - cbn. repeat split; auto; ring.
  - specialize (IH (fun w Hw => H w (or_intror Hw))). specialize (H v (or_introl eq_refl)).
    assert (OS : on_surface l v = rd edge v && (rd labels v =? Z.of_nat l)) by reflexivity. rewrite OS. clear OS. destruct (rd edge v) eqn:E.
    + specialize (H eq_refl).
      set (st1 := surf_step nx ny nz root matrix labels coords edge st v).
      assert (L1' : length (u_dists st1) = n /\ length (u_sums st1) = n /\ length (u_totals st1) = n).
      { unfold st1, surf_step. rewrite E. cbn [negb u_dists u_sums u_totals]. rewrite np_low_length, !np_add_length. auto. }
      destruct L1' as (M1 & M2 & M3). destruct (IH st1 M1 M2 M3) as (A1 & A2 & A3 & A4 & A5 & A6).
      split; [exact A1|]. split; [exact A2|]. split; [exact A3|]. rewrite A4.
      assert (V : nth l (u_dists st1) 0%Q = (if rd labels v =? Z.of_nat l then (if Qltb (dist l v) (nth l (u_dists st) 0) then dist l v else nth l (u_dists st) 0) else nth l (u_dists st) 0)%Q /\
        nth l (u_sums st1) 0%Q = (if rd labels v =? Z.of_nat l then nth l (u_sums st) 0 + dist l v else nth l (u_sums st) 0)%Q /\
        nth l (u_totals st1) 0%Q = (if rd labels v =? Z.of_nat l then nth l (u_totals st) 0 + 1 else nth l (u_totals st) 0)%Q).
      { unfold st1, surf_step. rewrite E. cbn [negb u_dists u_sums u_totals]. rewrite nth_np_low, !nth_np_add by lia.
        destruct (rd labels v =? Z.of_nat l) eqn:EL; [|auto].
        assert (rd labels v = Z.of_nat l) as -> by lia. assert (G : np_get coords (Z.of_nat l) = Some (nth l coords (0, 0, 0)%Q)).
        { unfold np_get. rewrite np_idx_pos by lia. rewrite Nat2Z.id. now apply nth_error_nth_lt. }
        rewrite G. auto. }
      destruct V as (V1 & V2 & V3). rewrite A5, A6, V1, V2, V3. cbn [andb].
      destruct (rd labels v =? Z.of_nat l); cbn [map length].
      * split; [reflexivity|]. split; [rewrite qsum_cons; ring|]. rewrite Nat2Z.inj_succ, <- Z.add_1_r, inject_Z_plus. change (inject_Z 1) with 1%Q. ring.
      * split; [reflexivity|]. split; reflexivity.
    + cbn [andb]. assert (E1 : surf_step nx ny nz root matrix labels coords edge st v = st) by (unfold surf_step; now rewrite E). rewrite E1. now apply IH.
Qed.

Lemma lower_spec ds : forall m, (lower m ds <= m)%Q /\ (forall d, In d ds -> (lower m ds <= d)%Q) /\ (lower m ds = m \/ In (lower m ds) ds).
Proof.
  induction ds as [|d ds IH]; intros m; cbn [lower fold_left].
  - repeat split; auto; [lra|intros d []].
  - destruct (IH (if Qltb d m then d else m)) as (A & B & C). fold (lower (if Qltb d m then d else m) ds).
    destruct (Qltb d m) eqn:E.
    + apply Qltb_lt in E. split; [lra|]. split; [intros x [<-|Hx]; [lra|auto]|]. destruct C as [->|C]; [right; now left|right; now right].
    + apply Qltb_ge in E. split; [lra|]. split; [intros x [<-|Hx]; [lra|auto]|]. destruct C as [->|C]; [now left|right; now right].
Qed.

Lemma qsum_ge_const m ds : (forall d, In d ds -> (m <= d)%Q) -> (m * inject_Z (Z.of_nat (length ds)) <= qsum ds)%Q.
Proof.
  induction ds as [|d ds IH]; intros H; [change (m * 0 <= 0)%Q; lra|]. cbn [length]. rewrite qsum_cons, Nat2Z.inj_succ, <- Z.add_1_r, inject_Z_plus.
  specialize (IH (fun x Hx => H x (or_intror Hx))). specialize (H d (or_introl eq_refl)). change (inject_Z 1) with 1%Q. lra.
Qed.

Theorem surface_correct max_value :
  (forall v, in_grid nx ny nz v -> value_at edge v = true -> 0 <= value_at labels v < Z.of_nat n) ->
  let r := get_min_avg_surface_dists nx ny nz root matrix labels coords edge max_value in
  length (fst r) = n /\ length (snd r) = n /\
  forall l, (l < n)%nat ->
  let own := fun v => in_grid nx ny nz v /\ value_at edge v = true /\ value_at labels v = Z.of_nat l in
  let sv := filter (fun v => value_at edge v && (value_at labels v =? Z.of_nat l)) (voxels nx ny nz) in
  let d := fun v => root (sq_dist nx ny nz matrix (nth l coords (0, 0, 0)%Q) v) in
  (forall v, own v -> (nth l (fst r) 0 <= d v)%Q) /\
  (nth l (fst r) 0 <= max_value)%Q /\
  (nth l (fst r) 0%Q = max_value \/ exists v, own v /\ nth l (fst r) 0%Q = d v) /\
  ((exists v, own v) ->
     (nth l (snd r) 0 == qsum (map d sv) / inject_Z (Z.of_nat (length sv)))%Q /\ (nth l (fst r) 0 <= nth l (snd r) 0)%Q).
Proof.
  intros HL r. unfold get_min_avg_surface_dists in r. set (st0 := {| u_dists := repeat max_value n; u_sums := repeat 0%Q n; u_totals := repeat 0%Q n |}) in r.
  assert (HV : forall v, In v (voxels nx ny nz) -> rd edge v = true -> 0 <= rd labels v < Z.of_nat n).
  { intros v Hv. apply in_voxels in Hv. exact (HL v Hv). }
  assert (LN : length (fst r) = n /\ length (snd r) = n).
  { assert (K : forall vs st, length (u_dists st) = n -> length (u_sums st) = n -> length (u_totals st) = n ->
      let st' := fold_left (surf_step nx ny nz root matrix labels coords edge) vs st in
      length (u_dists st') = n /\ length (u_sums st') = n /\ length (u_totals st') = n).
    { clear. induction vs as [|v vs IH]; intros st A B C; [cbn; auto|]. cbn [fold_left]. apply IH; unfold surf_step; destruct (negb _); auto; cbn; rewrite ?np_low_length, ?np_add_length; auto. }
    destruct (K (voxels nx ny nz) st0) as (K1 & K2 & K3); [apply repeat_length..|].
    unfold r. cbn [fst snd]. split; [exact K1|]. rewrite map_length, combine_length. rewrite K2, K3. lia. }
  destruct LN as [LN1 LN2]. split; [exact LN1|]. split; [exact LN2|].
  intros l Hl own sv d.
  destruct (surf_fold (voxels nx ny nz) l HV Hl st0) as (A1 & A2 & A3 & A4 & A5 & A6); [apply repeat_length..|].
  change (filter (on_surface l) (voxels nx ny nz)) with sv in A4, A5, A6.
  assert (OWN : forall v, own v <-> In v sv).
  { intros v. unfold own, sv. rewrite filter_In, in_voxels, andb_true_iff. split; intros; intuition lia. }
  assert (F : nth l (fst r) 0%Q = lower max_value (map d sv)).
  { unfold r. cbn [fst]. rewrite A4. unfold st0. cbn [u_dists]. rewrite nth_repeat_in by exact Hl. reflexivity. }
  destruct (lower_spec (map d sv) max_value) as (B1 & B2 & B3). rewrite F.
  split; [intros v Hv; apply B2, in_map, OWN, Hv|]. split; [exact B1|]. split.
  { destruct B3 as [B3|B3]; [now left|right]. apply in_map_iff in B3 as (v & E & Hv). exists v. split; [now apply OWN|now symmetry]. }
  intros (v & Hv). apply OWN in Hv.
  assert (POS : (0 < inject_Z (Z.of_nat (length sv)))%Q).
  { change 0%Q with (inject_Z 0). rewrite <- Zlt_Qlt. destruct sv; [destruct Hv|cbn; lia]. }
  assert (S : (nth l (snd r) 0 == qsum (map d sv) / inject_Z (Z.of_nat (length sv)))%Q).
  { unfold r. cbn [snd]. set (st := fold_left _ _ st0) in *.
    assert (E : nth l (map (fun ab : Q * Q => fst ab / snd ab)%Q (combine (u_sums st) (u_totals st))) 0%Q = (nth l (u_sums st) 0 / nth l (u_totals st) 0)%Q).
    { rewrite (nth_indep _ 0%Q ((fun ab : Q * Q => fst ab / snd ab)%Q (0, 0)%Q)) by (rewrite map_length, combine_length; lia).
      rewrite (map_nth (fun ab : Q * Q => fst ab / snd ab)%Q (combine (u_sums st) (u_totals st)) (0, 0)%Q), combine_nth by lia. reflexivity. }
    rewrite E, A5, A6. unfold st0. cbn [u_sums u_totals]. rewrite !nth_repeat_in by exact Hl. change (fun v0 => d v0) with d.
    change (map (fun v0 => root (sq_dist nx ny nz matrix (nth l coords (0, 0, 0)%Q) v0)) sv) with (map d sv). field. lra. }
  split; [exact S|]. rewrite S. apply Qle_shift_div_l; [exact POS|].
  pose proof (qsum_ge_const (lower max_value (map d sv)) (map d sv) B2) as K. rewrite map_length in K. exact K.
Qed.

(** The squared distances cannot exceed nine quarters of the largest squared cell vector. *)
Lemma frac_diff_half c i m : (- (1 # 2) <= frac_diff c i m <= 1 # 2)%Q.
Proof.
  unfold frac_diff. set (q := (c - inject_Z i / inject_Z m)%Q). pose proof (py_round_spec q) as (H & _). revert H. generalize (py_round q). intros z H.
  destruct H as [H1 H2]. split; lra.
Qed.
Lemma sq_pos x : (0 <= x * x)%Q.
Proof. destruct (Qlt_le_dec x 0) as [H|H]; [setoid_replace (x * x)%Q with ((-x) * (-x))%Q by ring|]; apply Qmult_le_0_compat; lra. Qed.
Lemma sq_half d x : (- (1 # 2) <= d <= 1 # 2 -> (d * x) * (d * x) <= (1 # 4) * (x * x))%Q.
Proof.
  intros H. assert (D : (d * d <= 1 # 4)%Q) by nra. assert (X : (0 <= x * x)%Q) by nra. nra.
Qed.
Theorem surface_range f v M2 : (sq_norm (fst (fst matrix)) <= M2 -> sq_norm (snd (fst matrix)) <= M2 -> sq_norm (snd matrix) <= M2 ->
  sq_dist nx ny nz matrix f v <= (9 # 4) * M2)%Q.
Proof.
  destruct matrix as [[[[a0 a1] a2] [[b0 b1] b2]] [[c0 c1] c2]], f as [[f0 f1] f2], v as [[i j] k]. cbn [fst snd]. unfold sq_dist, cart, sq_norm.
  pose proof (frac_diff_half f0 i nx) as H0. pose proof (frac_diff_half f1 j ny) as H1. pose proof (frac_diff_half f2 k nz) as H2.
  generalize dependent (frac_diff f0 i nx). intros x H0. generalize dependent (frac_diff f1 j ny). intros y H1. generalize dependent (frac_diff f2 k nz). intros z H2.
  intros A B C.
  assert (CS : forall p q r, ((p + q + r) * (p + q + r) <= 3 * (p * p + q * q + r * r))%Q).
  { intros p q r. pose proof (sq_pos (p - q)%Q). pose proof (sq_pos (q - r)%Q). pose proof (sq_pos (p - r)%Q). nra. }
  pose proof (CS (x * a0) (y * b0) (z * c0))%Q. pose proof (CS (x * a1) (y * b1) (z * c1))%Q. pose proof (CS (x * a2) (y * b2) (z * c2))%Q.
  pose proof (sq_half x a0 H0). pose proof (sq_half x a1 H0). pose proof (sq_half x a2 H0).
  pose proof (sq_half y b0 H1). pose proof (sq_half y b1 H1). pose proof (sq_half y b2 H1).
  pose proof (sq_half z c0 H2). pose proof (sq_half z c1 H2). pose proof (sq_half z c2 H2).
  lra.
Qed.
End Surface.
