From Verif Require Import Base GridModel GridProofs NeighModel NeighSpec NeighProofs RootsModel RootsSpec
  RootsProofs OngridProofs UnionModel LabelsModel LabelsSpec NearModel NearSpec.
From Coq Require Import Qround.

(** ** lists *)
Lemma NoDup_app_iff2 {A} (l l' : list A) : NoDup l -> NoDup l' -> (forall x, In x l -> ~ In x l') -> NoDup (l ++ l').
Proof.
  induction l as [|a t IH]; cbn; intros N N' D; [exact N'|]. inversion N; subst. constructor.
  - rewrite in_app_iff. intros [K|K]; [contradiction|]. now apply (D a (or_introl eq_refl)).
  - apply IH; auto.
Qed.
Lemma vox_nodup nx ny nz : NoDup (voxels nx ny nz).
Proof.
  unfold voxels.
  assert (G : forall (A B : Type) (f : A -> list B) (g : B -> A) l, (forall a b, In b (f a) -> g b = a) -> (forall a, NoDup (f a)) -> NoDup l -> NoDup (flat_map f l)).
  { intros A B f g l I F. induction l as [|a t IH]; cbn; intros ND; [constructor|]. inversion ND as [|? ? H2 H3]; subst. apply NoDup_app_iff2; [apply F|now apply IH|].
    intros b Hb Hb'. apply in_flat_map in Hb' as (a' & Ha' & Hb'). apply I in Hb, Hb'. subst. congruence. }
  apply (G _ _ _ (fun v : Z * Z * Z => fst (fst v))); [| |apply zrange_NoDup].
  - intros i [[a b] c] H. apply in_flat_map in H as (j & _ & H). apply in_map_iff in H as (k & [= <- <- <-] & _). reflexivity.
  - intros i. apply (G _ _ _ (fun v : Z * Z * Z => snd (fst v))); [| |apply zrange_NoDup].
    + intros j [[a b] c] H. apply in_map_iff in H as (k & [= <- <- <-] & _). reflexivity.
    + intros j. apply FinFun.Injective_map_NoDup; [|apply zrange_NoDup]. intros a b [= ->]. reflexivity.
Qed.
Lemma nth_error_upd_eq {A} (l : list A) i v : (i < length l)%nat -> nth_error (upd l i v) i = Some v.
Proof. intros H. rewrite nth_error_upd, Nat.eqb_refl. apply Nat.ltb_lt in H. now rewrite H. Qed.
Lemma nth_error_upd_neq {A} (l : list A) i j v : i <> j -> nth_error (upd l i v) j = nth_error l j.
Proof. intros H. rewrite nth_error_upd. apply Nat.eqb_neq in H. now rewrite H. Qed.

(** ** rounding *)
Lemma py_round_spec q : nearest_even q (py_round q).
Proof.
  unfold nearest_even, py_round. pose proof (Qfloor_le q) as H1. pose proof (Qlt_floor q) as H2.
  rewrite inject_Z_plus in H2. set (f := Qfloor q) in *. change (inject_Z 1) with 1%Q in H2.
  destruct (Qltb_spec (q - inject_Z f) (1 # 2)) as [L|L].
  - split; [split; lra|]. intros [E|E]; exfalso; lra.
  - destruct (Qltb_spec (1 # 2) (q - inject_Z f)) as [L'|L'].
    + rewrite inject_Z_plus. change (inject_Z 1) with 1%Q. split; [split; lra|]. intros [E|E]; exfalso; lra.
    + destruct (Z.even f) eqn:Ev.
      * split; [split; lra|auto].
      * rewrite inject_Z_plus. change (inject_Z 1) with 1%Q. split; [split; lra|]. intros _.
        rewrite Z.even_add, Ev. reflexivity.
Qed.

Lemma inject_Z_lt_inv a b : (inject_Z a < inject_Z b)%Q -> a < b.
Proof. now rewrite <- Zlt_Qlt. Qed.
Lemma inject_Z_le_inv a b : (inject_Z a <= inject_Z b)%Q -> a <= b.
Proof. now rewrite <- Zle_Qle. Qed.

Lemma nearest_even_fun q q' z z' : (q == q')%Q -> nearest_even q z -> nearest_even q' z' -> z = z'.
Proof.
  intros E [H1 H2] [H3 H4].
  assert (D1 : z - z' <= 1).
  { apply inject_Z_le_inv. unfold Z.sub. rewrite inject_Z_plus, inject_Z_opp. change (inject_Z 1) with 1%Q. lra. }
  assert (D2 : z' - z <= 1).
  { apply inject_Z_le_inv. unfold Z.sub. rewrite inject_Z_plus, inject_Z_opp. change (inject_Z 1) with 1%Q. lra. }
  assert (C : z = z' \/ z = z' + 1 \/ z' = z + 1) by lia. destruct C as [C|[C|C]]; [exact C| |]; exfalso.
  - subst z. rewrite inject_Z_plus in *. change (inject_Z 1) with 1%Q in *.
    assert (Z.even (z' + 1) = true) by (apply H2; right; lra). assert (Z.even z' = true) by (apply H4; left; lra).
    rewrite Z.even_add in H. rewrite H0 in H. discriminate.
  - subst z'. rewrite inject_Z_plus in *. change (inject_Z 1) with 1%Q in *.
    assert (Z.even (z + 1) = true) by (apply H4; right; lra). assert (Z.even z = true) by (apply H2; left; lra).
    rewrite Z.even_add in H. rewrite H0 in H. discriminate.
Qed.

Lemma nearest_even_bound q z (b : Z) : (- inject_Z b - (1#4) <= q <= inject_Z b + (1#4))%Q -> nearest_even q z -> - b <= z <= b.
Proof.
  intros H [H1 _]. split.
  - assert (- b - 1 < z); [|lia]. apply inject_Z_lt_inv. unfold Z.sub. rewrite inject_Z_plus, !inject_Z_opp. change (inject_Z 1) with 1%Q. lra.
  - assert (z < b + 1); [|lia]. apply inject_Z_lt_inv. rewrite inject_Z_plus. change (inject_Z 1) with 1%Q. lra.
Qed.

Definition le3 (g : q3) (b : Q) : Prop :=
  let '(x, y, z) := g in (- b <= x <= b /\ - b <= y <= b /\ - b <= z <= b)%Q.
Definition eq3 (g h : q3) : Prop := let '(x, y, z) := g in let '(x', y', z') := h in (x == x' /\ y == y' /\ z == z')%Q.
Lemma eq3_refl g : eq3 g g.
Proof. destruct g as [[x y] z]. cbn. repeat split; reflexivity. Qed.

Lemma vox_eqb_spec a b : vox_eqb a b = true <-> a = b.
Proof.
  destruct a as [[i j] k], b as [[i' j'] k']. unfold vox_eqb. rewrite !andb_true_iff, !Z.eqb_eq.
  split; [intros [[-> ->] ->]; reflexivity|intros [= -> -> ->]; auto].
Qed.
Lemma put_same {A} (m : Z * Z * Z -> A) v x : put m v x v = x.
Proof. unfold put. now rewrite (proj2 (vox_eqb_spec v v) eq_refl). Qed.
Lemma put_other {A} (m : Z * Z * Z -> A) v x u : u <> v -> put m v x u = m u.
Proof. intros H. unfold put. destruct (vox_eqb u v) eqn:E; [apply vox_eqb_spec in E; contradiction|reflexivity]. Qed.
Lemma vox_dec (a b : Z * Z * Z) : {a = b} + {a <> b}.
Proof. decide equality; [apply Z.eq_dec|]. decide equality; apply Z.eq_dec. Qed.

Section Near.
Variables nx ny nz : Z.
Hypothesis Hx : 2 <= nx.
Hypothesis Hy : 2 <= ny.
Hypothesis Hz : 2 <= nz.
Let Hx0 : 0 < nx. Proof. lia. Qed.
Let Hy0 : 0 < ny. Proof. lia. Qed.
Let Hz0 : 0 < nz. Proof. lia. Qed.
Notation N := (Z.to_nat (nx * ny * nz)).
Notation grid := (in_grid nx ny nz).
Notation num := (voxel_number ny nz).
Variable data : arr3 Q.
Variable nbs : list (offset * Q).
Hypothesis Hnbs : forall s d, In (s, d) nbs -> unit_offset s /\ (0 < d)%Q.
Variable vac : arr3 bool.
Hypothesis Hvac : forall v w, grid v -> grid w -> value_at vac w = true -> value_at vac v = false ->
  (value_at data w < value_at data v)%Q.
Notation ismax := (is_maximum nx ny nz data (map fst nbs) vac).
Variable mx : arr3 bool.
Hypothesis Hmx : forall v, grid v -> (value_at mx v = true <-> ismax v).
Variable grad : Z * Z * Z -> q3.
Hypothesis Hgrad : forall v, grid v -> le3 (grad v) 1.

Notation vacP := (fun v => value_at vac v = true).
Notation topP := (fun v => value_at mx v = true).
Notation best v := (snd (get_best_neighbor nx ny nz data v nbs)).
Notation cstep := (corrected_step nx ny nz grad).
Notation climbing := (climbing nx ny nz data nbs grad vacP topP).
Notation climbs := (climbs_to nx ny nz data nbs grad vacP topP).
Notation tgt := (near_target nx ny nz grad).

Lemma step_two v s : grid v -> (let '(a, b, c) := s in -2 <= a <= 2 /\ -2 <= b <= 2 /\ -2 <= c <= 2) ->
  periodic_target nx ny nz v s (step_to nx ny nz v s) /\ grid (step_to nx ny nz v s).
Proof.
  destruct v as [[i j] k], s as [[a b] c]. unfold step_to, periodic_target, wrap_point.
  intros (H1 & H2 & H3) (U1 & U2 & U3). rewrite !wrap1_mod by lia. split; [reflexivity|].
  unfold in_grid. repeat split; apply Z.mod_pos_bound; lia.
Qed.

Lemma near_target_spec v td : grid v -> le3 td (1 # 2) ->
  cstep v td (fst (tgt v td)) (snd (tgt v td)) /\ grid (fst (tgt v td)) /\ le3 (snd (tgt v td)) (1 # 2).
Proof.
  intros G T. pose proof (Hgrad v G) as B. unfold near_target. destruct (grad v) as [[ga gb] gc] eqn:Eg. destruct td as [[ta tb] tc].
  cbn [round3 q3_sub_int q3_add off_add fst snd].
  pose proof (py_round_spec ga) as Ra. pose proof (py_round_spec gb) as Rb. pose proof (py_round_spec gc) as Rc.
  set (pa := py_round ga) in *. set (pb := py_round gb) in *. set (pc := py_round gc) in *.
  pose proof (py_round_spec (ta + (ga - inject_Z pa))) as Sa. pose proof (py_round_spec (tb + (gb - inject_Z pb))) as Sb.
  pose proof (py_round_spec (tc + (gc - inject_Z pc))) as Sc.
  set (ra := py_round (ta + (ga - inject_Z pa))) in *. set (rb := py_round (tb + (gb - inject_Z pb))) in *.
  set (rc := py_round (tc + (gc - inject_Z pc))) in *.
  destruct B as (B1 & B2 & B3). destruct T as (T1 & T2 & T3).
  assert (U : forall q z, (- (1) <= q <= 1)%Q -> nearest_even q z -> -1 <= z <= 1).
  { intros q z Hq. apply (nearest_even_bound q z 1). change (inject_Z 1) with 1%Q. lra. }
  assert (U2 : forall t g z p, (- (1#2) <= t <= 1#2)%Q -> nearest_even g p -> nearest_even (t + (g - inject_Z p)) z -> -1 <= z <= 1).
  { intros t g z p Ht [Hp _]. apply U. lra. }
  pose proof (U _ _ B1 Ra). pose proof (U _ _ B2 Rb). pose proof (U _ _ B3 Rc).
  pose proof (U2 _ _ _ _ T1 Ra Sa). pose proof (U2 _ _ _ _ T2 Rb Sb). pose proof (U2 _ _ _ _ T3 Rc Sc).
  destruct (step_two v (pa + ra, pb + rb, pc + rc) G ltac:(cbn; lia)) as [PT GT].
  split; [|split; [exact GT|]].
  - exists (pa, pb, pc), (ga - inject_Z pa, gb - inject_Z pb, gc - inject_Z pc)%Q,
      (ta + (ga - inject_Z pa), tb + (gb - inject_Z pb), tc + (gc - inject_Z pc))%Q, (ra, rb, rc).
    rewrite Eg. cbn [nearest3 minus3 plus3]. split; [auto|]. split; [repeat split; reflexivity|]. split; [repeat split; reflexivity|].
    split; [auto|]. split; [repeat split; reflexivity|]. exact PT.
  - cbn [le3]. destruct Sa as [Sa _], Sb as [Sb _], Sc as [Sc _]. repeat split; lra.
Qed.

Lemma cstep_fun v td1 td2 n1 n2 t1 t2 : eq3 td1 td2 -> cstep v td1 n1 t1 -> cstep v td2 n2 t2 -> n1 = n2 /\ eq3 t1 t2.
Proof.
  intros E (p & re & u & r & A1 & A2 & A3 & A4 & A5 & A6) (p' & re' & u' & r' & B1 & B2 & B3 & B4 & B5 & B6).
  destruct (grad v) as [[ga gb] gc]. destruct p as [[pa pb] pc], p' as [[pa' pb'] pc'], re as [[ea eb] ec], re' as [[ea' eb'] ec'],
   u as [[ua ub] uc], u' as [[ua' ub'] uc'], r as [[ra rb] rc], r' as [[ra' rb'] rc'], td1 as [[ta tb] tc], td2 as [[sa sb] sc],
   t1 as [[xa xb] xc], t2 as [[ya yb] yc].
  cbn [nearest3 minus3 plus3 eq3] in *. destruct A1 as (A1a & A1b & A1c), B1 as (B1a & B1b & B1c).
  assert (pa = pa') by (eapply nearest_even_fun; [reflexivity|eassumption|eassumption]).
  assert (pb = pb') by (eapply nearest_even_fun; [reflexivity|eassumption|eassumption]).
  assert (pc = pc') by (eapply nearest_even_fun; [reflexivity|eassumption|eassumption]). subst pa' pb' pc'.
  destruct A2 as (A2a & A2b & A2c), B2 as (B2a & B2b & B2c), A3 as (A3a & A3b & A3c), B3 as (B3a & B3b & B3c), E as (Ea & Eb & Ec).
  destruct A4 as (A4a & A4b & A4c), B4 as (B4a & B4b & B4c).
  assert (Ua : (ua == ua')%Q) by lra. assert (Ub : (ub == ub')%Q) by lra. assert (Uc : (uc == uc')%Q) by lra.
  assert (ra = ra') by exact (nearest_even_fun _ _ _ _ Ua A4a B4a). assert (rb = rb') by exact (nearest_even_fun _ _ _ _ Ub A4b B4b).
  assert (rc = rc') by exact (nearest_even_fun _ _ _ _ Uc A4c B4c). subst ra' rb' rc'.
  split; [eapply ptarget_fun; eassumption|]. destruct A5 as (A5a & A5b & A5c), B5 as (B5a & B5b & B5c). repeat split; lra.
Qed.

(** ** the climb *)
Lemma max_grid v : ismax v -> grid v.
Proof. now intros (G & _). Qed.
Lemma nonmax_best v : grid v -> value_at vac v = false -> value_at mx v = false ->
  steepest nx ny nz data nbs v (best v) /\ grid (best v) /\ (value_at data v < value_at data (best v))%Q /\ value_at vac (best v) = false.
Proof.
  intros G V M. destruct (best_steepest nx ny nz Hx0 Hy0 Hz0 data nbs Hnbs v G) as [[H _]|[H L]].
  - exfalso. assert (value_at mx v = true) by (apply Hmx; [exact G|]; split; [exact G|]; now split). congruence.
  - destruct L as [L _]. pose proof (best_in_grid nx ny nz Hx0 Hy0 Hz0 data nbs Hnbs v G) as GB.
    repeat split; try assumption. destruct (value_at vac (best v)) eqn:E; [|reflexivity].
    specialize (Hvac v (best v) G GB E V). lra.
Qed.

Lemma climbing_fun pos td path m : climbing pos td path m -> grid pos -> forall td2 m2, eq3 td td2 -> climbing pos td2 path m2 -> m = m2.
Proof.
  assert (CG : forall v t n t', cstep v t n t' -> grid n).
  { intros v t n t' (p & re & u & r & _ & _ & _ & _ & _ & PT). destruct p as [[a b] c], r as [[a' b'] c'].
    eapply ptarget_in_grid; eauto. }
  induction 1 as [pos td path T|pos td path n td' m NT C NI NV K IH|pos td path n td' u m NT C NI S K IH]; intros G td2 m2 E K2.
  - inversion K2; subst; [reflexivity|contradiction|contradiction].
  - inversion K2 as [|p2 t2 pa2 n2 td2' mm2 NT2 C2 NI2 NV2 K2' Ep Et Epa Em|p2 t2 pa2 n2 td2' u2 mm2 NT2 C2 NI2 S2 K2' Ep Et Epa Em]; subst; [contradiction| |].
    + destruct (cstep_fun _ _ _ _ _ _ _ E C C2) as [<- E']. apply (IH (CG _ _ _ _ C) _ _ E' K2').
    + destruct (cstep_fun _ _ _ _ _ _ _ E C C2) as [<- E']. exfalso. tauto.
  - inversion K2 as [|p2 t2 pa2 n2 td2' mm2 NT2 C2 NI2 NV2 K2' Ep Et Epa Em|p2 t2 pa2 n2 td2' u2 mm2 NT2 C2 NI2 S2 K2' Ep Et Epa Em]; subst; [contradiction| |].
    + destruct (cstep_fun _ _ _ _ _ _ _ E C C2) as [<- E']. exfalso. tauto.
    + pose proof (steepest_fun nx ny nz Hx0 Hy0 Hz0 data nbs Hnbs _ _ G S) as ->. pose proof (steepest_fun nx ny nz Hx0 Hy0 Hz0 data nbs Hnbs _ _ G S2) as ->.
      apply (IH (best_in_grid nx ny nz Hx0 Hy0 Hz0 data nbs Hnbs pos G) _ _ (eq3_refl _) K2').
Qed.

Notation nstep zero pos td path := (climb_step nx ny nz data nbs grad zero pos td path).

(** Progress measure: unseen voxels, then the number of higher voxels. *)
Definition unseen (path : list (Z * Z * Z)) : nat :=
  length (filter (fun v => negb (existsb (vox_eqb v) path)) (voxels nx ny nz)).
Definition higher_than (v : Z * Z * Z) : nat :=
  length (filter (fun w => Qltb (value_at data v) (value_at data w)) (voxels nx ny nz)).
Notation M0 := (length (voxels nx ny nz)).
Definition cmeasure (pos : Z * Z * Z) (path : list (Z * Z * Z)) : nat :=
  (unseen (pos :: path) * S M0 + higher_than pos)%nat.

Lemma filter_le {A} (p : A -> bool) l : (length (filter p l) <= length l)%nat.
Proof. induction l as [|x t IH]; cbn [filter length]; [lia|]. destruct (p x); cbn [length]; lia. Qed.
Lemma filter_mono {A} (p q : A -> bool) l : (forall x, In x l -> p x = true -> q x = true) -> (length (filter p l) <= length (filter q l))%nat.
Proof.
  intros H. induction l as [|x t IH]; cbn [filter]; [lia|]. assert (IH' := IH (fun y Hy => H y (or_intror Hy))).
  specialize (H x (or_introl eq_refl)). destruct (p x); [rewrite H by reflexivity; cbn [length]; lia|]. destruct (q x); cbn [length]; lia.
Qed.

Lemma unseen_in path v : existsb (vox_eqb v) path = true <-> In v path.
Proof.
  rewrite existsb_exists. split.
  - intros (x & Hin & E). apply vox_eqb_spec in E. now subst.
  - intros Hin. exists v. split; [exact Hin|now apply vox_eqb_spec].
Qed.
Lemma unseen_new n path : grid n -> ~ In n path -> (unseen (n :: path) < unseen path)%nat.
Proof.
  intros G NI. unfold unseen. apply (filter_length_lt _ _ _ n).
  - intros y. cbn [existsb]. rewrite !negb_true_iff, orb_false_iff. tauto.
  - now apply in_voxels.
  - cbn [existsb]. rewrite (proj2 (vox_eqb_spec n n) eq_refl). reflexivity.
  - apply negb_true_iff. destruct (existsb (vox_eqb n) path) eqn:E; [|reflexivity]. apply unseen_in in E. contradiction.
Qed.
Lemma unseen_cons n path : (unseen (n :: path) <= unseen path)%nat.
Proof.
  unfold unseen. apply filter_mono. intros y _. cbn [existsb]. rewrite !negb_true_iff, orb_false_iff. tauto.
Qed.
Lemma higher_lt v w : grid w -> (value_at data v < value_at data w)%Q -> (higher_than w < higher_than v)%nat.
Proof.
  intros G L. unfold higher_than. apply (filter_length_lt _ _ _ w).
  - intros y K. apply Qltb_lt in K. apply Qltb_lt. lra.
  - now apply in_voxels.
  - destruct (Qltb_spec (value_at data w) (value_at data w)); [lra|reflexivity].
  - now apply Qltb_lt.
Qed.

Lemma flat_in n path : grid n -> Forall grid path -> existsb (Z.eqb (flat ny nz n)) (map (flat ny nz) path) = true <-> In n path.
Proof.
  intros G F. rewrite existsb_exists. split.
  - intros (x & Hin & E). apply in_map_iff in Hin as (w & <- & Hw). apply Z.eqb_eq in E.
    rewrite Forall_forall in F. pose proof (F w Hw) as Gw.
    assert (E' : num n = num w) by (rewrite <- !flat_voxel_number; now rewrite E).
    replace n with w; [exact Hw|]. rewrite <- (unflat_voxel_number nx ny nz n G), <- (unflat_voxel_number nx ny nz w Gw). now rewrite E'.
  - intros Hin. exists (flat ny nz n). split; [now apply in_map|apply Z.eqb_refl].
Qed.

(** One step of the climb from a voxel that is not a maximum. *)
Lemma climb_step_spec pos td path zero : grid pos -> value_at vac pos = false -> value_at mx pos = false -> le3 td (1 # 2) ->
  Forall grid path -> (zero = true <-> value_at vac (fst (tgt pos td)) = true) ->
  let '(n, td') := nstep zero pos td (map (flat ny nz) (pos :: path)) in
  grid n /\ value_at vac n = false /\ le3 td' (1 # 2) /\
  (forall m, climbing n td' (pos :: path) m -> climbing pos td path m) /\
  (cmeasure n (pos :: path) < cmeasure pos path)%nat.
Proof.
  intros G V M T F Z0. destruct (near_target_spec pos td G T) as (C & GT & TT). unfold climb_step.
  destruct (tgt pos td) as [n td'] eqn:E. cbn [fst snd] in *.
  assert (NT : ~ topP pos) by (cbv beta; congruence).
  assert (F' : Forall grid (pos :: path)) by (constructor; assumption).
  destruct (existsb (Z.eqb (flat ny nz n)) (map (flat ny nz) (pos :: path)) || zero) eqn:B.
  - destruct (nonmax_best pos G V M) as (S & GB & L & VB).
    split; [exact GB|]. split; [exact VB|]. split; [cbn; repeat split; lra|]. split.
    + intros m K. eapply cl_ongrid; eauto. apply orb_true_iff in B as [B|B]; [left; now apply (flat_in n (pos :: path) GT F')|right; now apply Z0].
    + unfold cmeasure. pose proof (unseen_cons (best pos) (pos :: path)). pose proof (higher_lt pos (best pos) GB L). nia.
  - apply orb_false_iff in B as [B1 B2].
    assert (NI : ~ In n (pos :: path)) by (intros K; apply (flat_in n (pos :: path) GT F') in K; congruence).
    assert (Vn : value_at vac n = false).
    { destruct (value_at vac n) eqn:Vn; [|reflexivity]. destruct zero; [discriminate|]. discriminate (proj2 Z0 eq_refl). }
    split; [exact GT|]. split; [exact Vn|]. split; [exact TT|]. split.
    + intros m K. refine (cl_near _ _ _ _ _ _ _ _ _ _ _ _ _ _ NT C NI _ K); cbv beta; congruence.
    + unfold cmeasure. pose proof (unseen_new n (pos :: path) GT NI). pose proof (filter_le (fun w => Qltb (value_at data n) (value_at data w)) (voxels nx ny nz)).
      fold (higher_than n) in H0. nia.
Qed.

Lemma climbing_exists k : forall pos td path, (cmeasure pos path < k)%nat -> grid pos -> value_at vac pos = false -> le3 td (1 # 2) -> Forall grid path ->
  exists m, climbing pos td path m /\ ismax m.
Proof.
  induction k as [|k IH]; intros pos td path Lk G V T F; [lia|].
  destruct (value_at mx pos) eqn:M.
  - exists pos. split; [now apply cl_end|now apply Hmx].
  - pose proof (climb_step_spec pos td path (value_at vac (fst (tgt pos td))) G V M T F (conj (fun e => e) (fun e => e))) as K.
    destruct (nstep _ pos td _) as [n td']. destruct K as (Gn & Vn & Tn & C & LM).
    destruct (IH n td' (pos :: path)) as (m & Hm & Tm); auto; [lia|]. exists m. split; [now apply C|exact Tm].
Qed.

Lemma le3_zero : le3 (0, 0, 0)%Q (1 # 2).
Proof. cbn. repeat split; lra. Qed.
Lemma climbs_exists v : grid v -> value_at vac v = false -> exists m, climbs v m /\ ismax m.
Proof. intros G V. eapply climbing_exists; eauto using le3_zero. Qed.
Lemma climbs_fun v m1 m2 : grid v -> climbs v m1 -> climbs v m2 -> m1 = m2.
Proof. intros G A B. eapply climbing_fun; eauto using eq3_refl. Qed.
Lemma climbs_max v m : value_at mx v = true -> climbs v m -> m = v.
Proof. intros T K. inversion K; subst; [reflexivity|contradiction|contradiction]. Qed.

Lemma nb_step v s : grid v -> In s (map fst nbs) -> periodic_target nx ny nz v s (step_to nx ny nz v s) /\ grid (step_to nx ny nz v s).
Proof.
  intros G Hs. apply step_two; [exact G|]. apply in_map_iff in Hs as ([s' d] & <- & H). destruct (Hnbs s' d H) as [U _].
  destruct s' as [[a b] c]. cbn in *. lia.
Qed.

(** ** one pass *)
Section Pass.
Variable L : Z * Z * Z -> Z.
Variable M : Z * Z * Z -> bool.
Variable D : Z * Z * Z -> Z * Z * Z.
Hypothesis HD : forall v, grid v -> value_at vac v = false -> climbs v (D v) /\ ismax (D v).
Hypothesis HL0 : forall u, grid u -> (L u = 0 <-> value_at vac u = true).
Hypothesis HM : forall u, grid u -> M u = true -> L u < 0.
Notation inS v := (grid v /\ M v = true).
Notation cur v := (Z.abs (L (D v))).
Notation changes v := (Z.abs (L v) <> cur v).
Notation stp := (step_to nx ny nz).
Notation touched u := (exists v s, inS v /\ changes v /\ In s (map fst nbs) /\ stp v s = u).

Definition MI (m : memory) : Prop := forall u, grid u ->
  (M u = true -> m_lab m u = L u \/ m_lab m u = - cur u) /\
  (M u = false -> (m_lab m u = L u \/ (0 < L u /\ m_lab m u = - L u /\ m_mask m u = true)) /\
                  (m_mask m u = true -> 0 < L u /\ touched u)).

Lemma inS_vac v : inS v -> value_at vac v = false.
Proof. intros [G H]. destruct (value_at vac v) eqn:E; [|reflexivity]. apply HL0 in E; [|exact G]. specialize (HM v G H). lia. Qed.
Lemma D_max v : inS v -> ismax (D v).
Proof. intros H. apply HD; [apply H|now apply inS_vac]. Qed.
Lemma D_D v : inS v -> D (D v) = D v.
Proof.
  intros H. pose proof (D_max v H) as T. pose proof T as (G & V & _). destruct (HD (D v) G V) as [K _].
  apply climbs_max in K; [exact K|now apply Hmx].
Qed.
Lemma max_lab m v : MI m -> ismax v -> Z.abs (m_lab m v) = Z.abs (L v).
Proof.
  intros I T. pose proof T as (G & V & _). destruct (I v G) as [I1 I2]. destruct (M v) eqn:E.
  - destruct (I1 eq_refl) as [->| ->]; [reflexivity|]. destruct (HD v G V) as [K _]. apply climbs_max in K; [|now apply Hmx]. rewrite K. lia.
  - destruct (I2 eq_refl) as [[->|(_ & -> & _)] _]; lia.
Qed.
Lemma zero_lab m u : MI m -> grid u -> (m_lab m u = 0 <-> value_at vac u = true).
Proof.
  intros I G. rewrite <- HL0 by exact G. destruct (I u G) as [I1 I2]. destruct (M u) eqn:E.
  - destruct (I1 eq_refl) as [->| ->]; [reflexivity|]. assert (S : inS u) by auto. pose proof (D_max u S) as (GD & VD & _).
    assert (L (D u) <> 0) by (rewrite HL0 by exact GD; congruence). specialize (HM u G E). lia.
  - destruct (I2 eq_refl) as [[->|(_ & -> & _)] _]; lia.
Qed.

Definition marked (m : memory) (v : Z * Z * Z) (ss : list offset) : Prop :=
  forall s, In s ss -> 0 < L (stp v s) -> m_lab m (stp v s) = - L (stp v s).
Definition onway (v pos : Z * Z * Z) (td : q3) (path : list Z) : Prop :=
  exists pv, path = map (flat ny nz) pv /\ Forall grid pv /\ grid pos /\ value_at vac pos = false /\ le3 td (1 # 2) /\ climbing pos td pv (D v).

Definition TI (m : memory) (v : Z * Z * Z) (th : rthread) : Prop :=
  match th with
  | RStart v' => v' = v /\ m_lab m v = L v
  | RClimb v' l pos td path => v' = v /\ m_lab m v = L v /\ l = Z.abs (L v) /\ onway v pos td path
  | RMask v' l p => v' = v /\ m_lab m v = L v /\ l = Z.abs (L v) /\ p = D v
  | RRead v' l p => v' = v /\ m_lab m v = L v /\ l = Z.abs (L v) /\ p = D v /\ m_mask m v = false
  | RNb v' c todo => v' = v /\ m_lab m v = L v /\ c = cur v /\ changes v /\ m_mask m v = false /\
      exists dn, map fst nbs = dn ++ todo /\ marked m v dn
  | RSet v' c n todo => v' = v /\ m_lab m v = L v /\ c = cur v /\ changes v /\ m_mask m v = false /\
      exists dn s, map fst nbs = dn ++ s :: todo /\ marked m v dn /\ n = stp v s /\ 0 < L n
  | RAbs v' c n todo => v' = v /\ m_lab m v = L v /\ c = cur v /\ changes v /\ m_mask m v = false /\
      exists dn s, map fst nbs = dn ++ s :: todo /\ marked m v dn /\ n = stp v s /\ 0 < L n /\ m_mask m n = true
  | RNeg v' c n x todo => v' = v /\ m_lab m v = L v /\ c = cur v /\ changes v /\ m_mask m v = false /\
      exists dn s, map fst nbs = dn ++ s :: todo /\ marked m v dn /\ n = stp v s /\ 0 < L n /\ m_mask m n = true /\ Z.abs x = L n
  | RWrite v' c ch => v' = v /\ m_lab m v = L v /\ c = cur v /\ m_mask m v = false /\
      (ch = true <-> changes v) /\ (ch = true -> marked m v (map fst nbs))
  | RDone ch => m_lab m v = - cur v /\ m_mask m v = false /\ (ch = true <-> changes v) /\ (ch = true -> marked m v (map fst nbs))
  end.

(** What the other threads may observe of a step of the thread of [v]. *)
Definition frame (v : Z * Z * Z) (m m' : memory) : Prop :=
  (forall w, inS w -> w <> v -> m_lab m' w = m_lab m w /\ m_mask m' w = m_mask m w) /\
  (forall u, grid u -> M u = false -> (0 < L u -> m_lab m u = - L u -> m_lab m' u = - L u) /\ (m_mask m u = true -> m_mask m' u = true)).

Lemma pos_notS u : grid u -> 0 < L u -> M u = false.
Proof. intros G P. destruct (M u) eqn:E; [|reflexivity]. specialize (HM u G E). lia. Qed.

Lemma frame_refl v m : frame v m m.
Proof. split; auto. Qed.

Lemma marked_frame v w m m' ss : inS w -> (forall s, In s ss -> In s (map fst nbs)) -> frame v m m' -> marked m w ss -> marked m' w ss.
Proof.
  intros Sw Hss [_ F2] K s Hs P. destruct (nb_step w s (proj1 Sw) (Hss s Hs)) as [_ G].
  apply (F2 (stp w s) G (pos_notS _ G P)); [exact P|]. now apply K.
Qed.

Lemma TI_frame v w m m' th : inS w -> w <> v -> frame v m m' -> TI m w th -> TI m' w th.
Proof.
  intros Sw NE F. pose proof F as [F1 F2]. destruct (F1 w Sw NE) as [E1 E2].
  assert (MK : forall dn rest, map fst nbs = dn ++ rest -> marked m w dn -> marked m' w dn).
  { intros dn rest E K. apply (marked_frame v w m m' dn Sw); auto. intros s Hs. rewrite E. apply in_or_app. now left. }
  assert (NBG : forall dn s rest, map fst nbs = dn ++ s :: rest -> grid (stp w s)).
  { intros dn s rest E. apply nb_step; [apply Sw|]. rewrite E. apply in_or_app. right. now left. }
  assert (MS : forall n, grid n -> 0 < L n -> m_mask m n = true -> m_mask m' n = true).
  { intros n G P. apply (F2 n G (pos_notS n G P)). }
  destruct th; cbn [TI]; rewrite ?E1, ?E2; try tauto.
  - intros (A1 & A2 & A3 & A4 & A5 & dn & B1 & B2). repeat (split; [assumption|]). exists dn. eauto.
  - intros (A1 & A2 & A3 & A4 & A5 & dn & s & B1 & B2 & B3 & B4). repeat (split; [assumption|]). exists dn, s. eauto 8.
  - intros (A1 & A2 & A3 & A4 & A5 & dn & s & B1 & B2 & B3 & B4 & B5). repeat (split; [assumption|]). exists dn, s.
    split; [exact B1|]. split; [eauto|]. split; [exact B3|]. split; [exact B4|]. apply MS; auto. subst n. eauto.
  - intros (A1 & A2 & A3 & A4 & A5 & dn & s & B1 & B2 & B3 & B4 & B5 & B6). repeat (split; [assumption|]). exists dn, s.
    split; [exact B1|]. split; [eauto|]. split; [exact B3|]. split; [exact B4|]. split; [|exact B6]. apply MS; auto. subst n. eauto.
  - intros (A1 & A2 & A3 & A4 & A5 & A6). repeat (split; [assumption|]). intros H. apply (MK _ []); [now rewrite app_nil_r|auto].
  - intros (A1 & A2 & A3 & A4). repeat (split; [assumption|]). intros H. apply (MK _ []); [now rewrite app_nil_r|auto].
Qed.

(** The number of steps a thread still has to make. *)
Definition tmeasure (v : Z * Z * Z) (th : rthread) (k : nat) : Prop :=
  let tail := (4 * length (map fst nbs) + 3)%nat in
  match th with
  | RStart _ => (S (S (cmeasure v [])) + tail + 1 <= k)%nat
  | RClimb _ _ pos _ path => exists pv, path = map (flat ny nz) pv /\ Forall grid pv /\ (S (cmeasure pos pv) + tail + 1 <= k)%nat
  | RMask _ _ _ => (tail + 1 <= k)%nat
  | RRead _ _ _ => (tail <= k)%nat
  | RNb _ _ todo => (4 * length todo + 2 <= k)%nat
  | RSet _ _ _ todo => (4 * length todo + 5 <= k)%nat
  | RAbs _ _ _ todo => (4 * length todo + 4 <= k)%nat
  | RNeg _ _ _ _ todo => (4 * length todo + 3 <= k)%nat
  | RWrite _ _ _ => (1 <= k)%nat
  | RDone _ => True
  end.

Lemma rstep_ok m v th : MI m -> inS v -> TI m v th ->
  let '(m', th') := rstep nx ny nz data nbs grad mx m th in
  MI m' /\ TI m' v th' /\ frame v m m' /\ (forall k, tmeasure v th k -> tmeasure v th' (pred k)).
Proof.
  intros I Sv T. pose proof (inS_vac v Sv) as Vv. destruct (HD v (proj1 Sv) Vv) as [CD TD].
  assert (Lneg : L v < 0) by (apply HM; apply Sv).
  destruct th as [v'|v' l pos td path|v' l p|v' l p|v' c todo|v' c n todo|v' c n todo|v' c n x todo|v' c ch|ch]; cbn [rstep TI] in *.
  - (* start *)
    destruct T as [-> T]. split; [exact I|]. split; [|split; [apply frame_refl|]].
    + cbn [TI]. rewrite T. repeat split; auto. exists []. repeat split; auto; try apply Sv. all: cbn; lra.
    + intros k K. cbn [tmeasure] in *. exists []. repeat split; [constructor|]. lia.
  - (* climb *)
    destruct T as (-> & T1 & T2 & pv & -> & Fp & Gp & Vp & Tp & Cp).
    change (@rd bool) with (@value_at bool). destruct (value_at mx pos) eqn:Mp.
    + split; [exact I|]. split; [|split; [apply frame_refl|]].
      * cbn [TI]. repeat split; auto. inversion Cp; subst; [reflexivity|contradiction|contradiction].
      * intros k (pv' & _ & _ & K). cbn [tmeasure]. lia.
    + destruct (near_target_spec pos td Gp Tp) as (_ & GT & _).
      assert (Z0 : (m_lab m (fst (tgt pos td)) =? 0) = true <-> value_at vac (fst (tgt pos td)) = true).
      { rewrite Z.eqb_eq. now apply zero_lab. }
      pose proof (climb_step_spec pos td pv _ Gp Vp Mp Tp Fp Z0) as K.
      cbn [map] in K. destruct (nstep _ pos td _) as [n td']. destruct K as (Gn & Vn & Tn & Cn & LM).
      assert (F' : Forall grid (pos :: pv)) by (constructor; assumption).
      split; [exact I|]. split; [|split; [apply frame_refl|]].
      * cbn [TI]. repeat split; auto. exists (pos :: pv). split; [reflexivity|]. split; [exact F'|]. repeat (split; [assumption|]).
        destruct (climbing_exists (S (cmeasure n (pos :: pv))) n td' (pos :: pv)) as (m2 & K1 & _); auto.
        pose proof (climbing_fun pos td pv (D v) Cp Gp td m2 (eq3_refl _) (Cn m2 K1)) as ->. exact K1.
      * intros k (pv' & E' & F'' & K). cbn [tmeasure]. exists (pos :: pv).
        assert (pv' = pv).
        { clear - E' F'' Fp. revert pv E' Fp. induction pv' as [|a t IH]; intros [|b u] E' Fp; try discriminate; [reflexivity|].
          cbn [map] in E'. injection E' as E1 E2. inversion F''; subst. inversion Fp; subst. f_equal; [|auto].
          assert (E' : num a = num b) by (rewrite <- !flat_voxel_number; now rewrite E1).
          rewrite <- (unflat_voxel_number nx ny nz a H1), <- (unflat_voxel_number nx ny nz b H3). now rewrite E'. }
        subst pv'. split; [reflexivity|]. split; [exact F'|]. lia.
  - (* mask *)
    destruct T as (-> & T1 & T2 & ->). split; [|split; [|split]].
    + intros u Gu. destruct (I u Gu) as [I1 I2]. split; [exact I1|]. intros Mu. destruct (I2 Mu) as [J1 J2]. cbn [m_lab m_mask].
      rewrite put_other by (intros ->; destruct Sv; congruence). auto.
    + cbn [TI m_lab m_mask]. rewrite put_same. auto.
    + split.
      * intros w Sw NE. cbn [m_lab m_mask]. split; [reflexivity|now apply put_other].
      * intros u Gu Mu. cbn [m_lab m_mask]. split; [auto|]. rewrite put_other by (intros ->; destruct Sv; congruence). auto.
    + cbn [tmeasure]. lia.
  - (* read *)
    destruct T as (-> & T1 & -> & -> & T4). rewrite (max_lab m (D v) I TD).
    destruct (Z.eqb_spec (Z.abs (L v)) (cur v)) as [E|E]; (split; [exact I|]; split; [|split; [apply frame_refl|]]).
    + cbn [TI]. repeat split; auto; try (intros; discriminate); try (intros; contradiction).
    + cbn [tmeasure]. lia.
    + cbn [TI]. repeat split; auto. exists []. split; [reflexivity|]. intros s [].
    + cbn [tmeasure]. lia.
  - (* neighbour test *)
    destruct T as (-> & T1 & -> & T3 & T4 & dn & E & K). destruct todo as [|s todo].
    + split; [exact I|]. split; [|split; [apply frame_refl|]].
      * cbn [TI]. rewrite app_nil_r in E. rewrite E. repeat split; auto.
      * cbn [tmeasure]. intros k. cbn [length]. lia.
    + assert (Hs : In s (map fst nbs)) by (rewrite E; apply in_or_app; right; now left).
      destruct (nb_step v s (proj1 Sv) Hs) as [_ Gn]. destruct (I (stp v s) Gn) as [I1 I2].
      destruct (Z.ltb_spec 0 (m_lab m (stp v s))) as [P|P]; (split; [exact I|]; split; [|split; [apply frame_refl|]]).
      * cbn [TI]. repeat split; auto. exists dn, s. repeat split; auto.
        destruct (M (stp v s)) eqn:Ms.
        -- specialize (HM _ Gn Ms). destruct (I1 eq_refl) as [J|J]; lia.
        -- destruct (I2 eq_refl) as [[J|(_ & J & _)] _]; lia.
      * cbn [tmeasure length]. lia.
      * cbn [TI]. repeat split; auto. exists (dn ++ [s]). split; [now rewrite <- app_assoc|].
        intros s' Hs' P'. apply in_app_or in Hs' as [Hs'|[<-|[]]]; [now apply K|].
        destruct (I2 (pos_notS _ Gn P')) as [[J|(_ & J & _)] _]; lia.
      * cbn [tmeasure length]. lia.
  - (* set the mask of the neighbour *)
    destruct T as (-> & T1 & -> & T3 & T4 & dn & s & E & K & -> & P).
    assert (Hs : In s (map fst nbs)) by (rewrite E; apply in_or_app; right; now left).
    destruct (nb_step v s (proj1 Sv) Hs) as [_ Gn]. pose proof (pos_notS _ Gn P) as Mn.
    assert (NE : stp v s <> v) by (intros EQ; rewrite EQ in P; lia).
    split; [|split; [|split]].
    + intros u Gu. destruct (I u Gu) as [I1 I2]. split; [exact I1|]. intros Mu. destruct (I2 Mu) as [J1 J2]. cbn [m_lab m_mask].
      destruct (vox_dec u (stp v s)) as [->|NEu].
      * rewrite put_same. split; [|intros _; split; [exact P|exists v, s; auto]]. destruct J1 as [J|(J & J' & _)]; auto.
      * rewrite put_other by exact NEu. auto.
    + cbn [TI m_lab m_mask]. rewrite put_same, put_other by congruence. repeat split; auto. exists dn, s. repeat split; auto.
    + split.
      * intros w Sw NEw. cbn [m_lab m_mask]. split; [reflexivity|]. apply put_other. intros ->. destruct Sw. congruence.
      * intros u Gu Mu. cbn [m_lab m_mask]. split; [auto|]. intros H. unfold put. destruct (vox_eqb u (stp v s)); auto.
    + cbn [tmeasure length]. lia.
  - (* read the label of the neighbour *)
    destruct T as (-> & T1 & -> & T3 & T4 & dn & s & E & K & -> & P & Q).
    assert (Hs : In s (map fst nbs)) by (rewrite E; apply in_or_app; right; now left).
    destruct (nb_step v s (proj1 Sv) Hs) as [_ Gn]. pose proof (pos_notS _ Gn P) as Mn. destruct (I _ Gn) as [_ I2].
    split; [exact I|]. split; [|split; [apply frame_refl|]].
    + cbn [TI]. repeat split; auto. exists dn, s. repeat split; auto. destruct (I2 Mn) as [[J|(_ & J & _)] _]; lia.
    + cbn [tmeasure length]. lia.
  - (* negate the label of the neighbour *)
    destruct T as (-> & T1 & -> & T3 & T4 & dn & s & E & K & -> & P & Q & X).
    assert (Hs : In s (map fst nbs)) by (rewrite E; apply in_or_app; right; now left).
    destruct (nb_step v s (proj1 Sv) Hs) as [_ Gn]. pose proof (pos_notS _ Gn P) as Mn.
    assert (NE : stp v s <> v) by (intros EQ; rewrite EQ in P; lia).
    split; [|split; [|split]].
    + intros u Gu. destruct (I u Gu) as [I1 I2]. cbn [m_lab m_mask]. destruct (vox_dec u (stp v s)) as [->|NEu].
      * split; [congruence|]. intros _. rewrite put_same, X. destruct (I2 Mn) as [J1 J2]. split; [right; auto|exact J2].
      * rewrite put_other by exact NEu. auto.
    + cbn [TI m_lab m_mask]. rewrite put_other by congruence. repeat split; auto. exists (dn ++ [s]). split; [now rewrite <- app_assoc|].
      intros s' Hs' P'. cbn [m_lab]. destruct (vox_dec (stp v s') (stp v s)) as [EQ|NE'].
      * rewrite EQ, put_same, X. reflexivity.
      * rewrite put_other by exact NE'. apply in_app_or in Hs' as [Hs'|[<-|[]]]; [now apply K|congruence].
    + split.
      * intros w Sw NEw. cbn [m_lab m_mask]. split; [|reflexivity]. apply put_other. intros ->. destruct Sw. congruence.
      * intros u Gu Mu. cbn [m_lab m_mask]. split; [|auto]. intros Pu H. destruct (vox_dec u (stp v s)) as [->|NEu]; [now rewrite put_same, X|now rewrite put_other].
    + cbn [tmeasure length]. lia.
  - (* final write *)
    destruct T as (-> & T1 & -> & T3 & T4 & T5). split; [|split; [|split]].
    + intros u Gu. destruct (I u Gu) as [I1 I2]. cbn [m_lab m_mask]. destruct (vox_dec u v) as [->|NEu].
      * split; [intros _; rewrite put_same; now right|destruct Sv; congruence].
      * rewrite put_other by exact NEu. auto.
    + cbn [TI m_lab m_mask]. rewrite put_same. repeat split; auto; try apply T4. intros H s Hs P. cbn [m_lab].
      rewrite put_other; [now apply T5|]. intros EQ. rewrite EQ in P. lia.
    + split.
      * intros w Sw NEw. cbn [m_lab m_mask]. split; [now apply put_other|reflexivity].
      * intros u Gu Mu. cbn [m_lab m_mask]. split; [|auto]. intros Pu H. rewrite put_other; [exact H|]. intros ->. destruct Sv; congruence.
    + cbn [tmeasure]. auto.
  - split; [exact I|]. split; [exact T|]. split; [apply frame_refl|]. cbn [tmeasure]. auto.
Qed.

Notation m0 := {| m_lab := L; m_mask := M |}.
Notation vs := (refinement_indices nx ny nz m0).
Lemma vs_in v : In v vs <-> inS v.
Proof. unfold refinement_indices. rewrite filter_In, in_voxels. cbn [m_mask]. reflexivity. Qed.
Lemma vs_nodup : NoDup vs.
Proof. unfold refinement_indices. apply NoDup_filter, vox_nodup. Qed.

Definition INV (st : memory * list rthread) : Prop :=
  MI (fst st) /\ length (snd st) = length vs /\
  forall t v th, nth_error vs t = Some v -> nth_error (snd st) t = Some th -> TI (fst st) v th.

Lemma INV_start : INV (m0, map RStart vs).
Proof.
  split; [|split].
  - intros u G. cbn [fst m_lab m_mask]. split; [auto|]. intros E. split; [auto|congruence].
  - cbn [snd]. apply map_length.
  - intros t v th E1 E2. cbn [fst snd] in *. rewrite nth_error_map, E1 in E2. injection E2 as <-. cbn. auto.
Qed.

Lemma INV_step st t : INV st -> INV (rsched nx ny nz data nbs grad mx st t) /\
  (forall k t' v th th', nth_error vs t' = Some v -> nth_error (snd st) t' = Some th ->
     nth_error (snd (rsched nx ny nz data nbs grad mx st t)) t' = Some th' -> tmeasure v th k ->
     tmeasure v th' (if Nat.eqb t t' then pred k else k)).
Proof.
  destruct st as [m ths]. intros (I & Len & T). cbn [fst snd] in *. unfold rsched.
  destruct (nth_error ths t) as [th|] eqn:E.
  2:{ split; [split; auto|]. intros k t' v th th' _ E2 E3 K. cbn [snd] in *. destruct (Nat.eqb_spec t t') as [->|]; [congruence|]. congruence. }
  assert (exists v, nth_error vs t = Some v) as (v & Ev).
  { destruct (nth_error vs t) eqn:K; [eauto|]. apply nth_error_None in K. assert (t < length ths)%nat by (apply nth_error_Some; congruence). lia. }
  assert (Sv : inS v) by (apply vs_in; eapply nth_error_In; eauto).
  pose proof (rstep_ok m v th I Sv (T t v th Ev E)) as K. destruct (rstep _ _ _ _ _ _ _ m th) as [m' th1].
  destruct K as (I' & T' & F & ME). split; [split; [exact I'|split]|].
  - cbn [fst snd]. now rewrite upd_length.
  - cbn [fst snd]. intros t' v' th' E1 E2. destruct (Nat.eq_dec t' t) as [->|NE].
    + rewrite nth_error_upd_eq in E2 by (apply nth_error_Some; congruence). injection E2 as <-. assert (v' = v) by congruence. now subst v'.
    + rewrite nth_error_upd_neq in E2 by congruence.
      apply (TI_frame v v' m m'); [apply vs_in; eapply nth_error_In; eauto| |exact F|eapply T; eauto].
      intros ->. apply NE. eapply (proj1 (NoDup_nth_error vs) vs_nodup); [apply nth_error_Some; congruence|congruence].
  - cbn [snd]. intros k t' v' th0 th' E1 E2 E3 K. destruct (Nat.eqb_spec t t') as [->|NE].
    + rewrite nth_error_upd_eq in E3 by (apply nth_error_Some; congruence). injection E3 as <-.
      assert (v' = v) by congruence. assert (th0 = th) by congruence. subst. auto.
    + rewrite nth_error_upd_neq in E3 by congruence. congruence.
Qed.

Lemma INV_run sched : forall st, INV st -> INV (run_threads nx ny nz data nbs grad mx sched st).
Proof. induction sched as [|t r IH]; intros st I; [exact I|]. cbn. apply IH. now apply INV_step. Qed.

(** The state after a pass in which every thread has finished, for every interleaving. *)
Lemma pass_spec sched m' ths : pass_threads nx ny nz data nbs grad mx m0 sched = (m', ths) -> forallb finished ths = true ->
  (forall u, grid u ->
    (M u = true -> m_lab m' u = - cur u /\ m_mask m' u = false) /\
    (M u = false -> (m_mask m' u = true -> 0 < L u /\ touched u /\ m_lab m' u = - L u) /\
                    (m_mask m' u = false -> m_lab m' u = L u /\ (0 < L u -> ~ touched u)))) /\
  (existsb reassigned ths = true <-> exists v, inS v /\ changes v).
Proof.
  intros E F. pose proof (INV_run sched _ INV_start) as I. unfold pass_threads in E. rewrite E in I. destruct I as (I & Len & T). cbn [fst snd] in *.
  assert (TD : forall v, inS v -> exists ch, In (RDone ch) ths /\ TI m' v (RDone ch)).
  { intros v Sv. apply vs_in in Sv. apply In_nth_error in Sv as (t & Et).
    destruct (nth_error ths t) as [th|] eqn:Eth.
    - pose proof (T t v th Et Eth) as K. apply nth_error_In in Eth as Hin. rewrite forallb_forall in F. specialize (F th Hin).
      destruct th; try discriminate F. eauto.
    - apply nth_error_None in Eth. assert (t < length vs)%nat by (apply nth_error_Some; congruence). lia. }
  assert (MK : forall u, grid u -> 0 < L u -> touched u -> m_lab m' u = - L u).
  { intros u G P (v & s & Sv & Cv & Hs & <-). destruct (TD v Sv) as (ch & _ & _ & _ & K1 & K2). now apply K2; [apply K1|exact Hs|]. }
  split.
  - intros u G. destruct (I u G) as [I1 I2]. split.
    + intros Mu. destruct (TD u (conj G Mu)) as (ch & _ & K1 & K2 & _). auto.
    + intros Mu. destruct (I2 Mu) as [J1 J2]. split.
      * intros Q. destruct (J2 Q) as [P Tu]. split; [exact P|]. split; [exact Tu|]. now apply MK.
      * intros Q. destruct J1 as [J|(_ & _ & J)]; [|congruence]. split; [exact J|]. intros P Tu. pose proof (MK u G P Tu). lia.
  - rewrite existsb_exists. split.
    + intros (th & Hin & R). apply In_nth_error in Hin as (t & Eth). destruct (nth_error vs t) as [v|] eqn:Ev.
      * pose proof (T t v th Ev Eth) as K. destruct th; try discriminate R. cbn in R. subst changed. exists v.
        split; [apply vs_in; eapply nth_error_In; eauto|]. now apply K.
      * apply nth_error_None in Ev. assert (t < length ths)%nat by (apply nth_error_Some; congruence). lia.
    + intros (v & Sv & Cv). destruct (TD v Sv) as (ch & Hin & _ & _ & K & _). exists (RDone ch). split; [exact Hin|]. cbn. now apply K.
Qed.

(** Every thread finishes after a bounded number of its own steps. *)
Definition step_bound : nat := (S M0 * S M0 + 4 * length nbs + 10)%nat.
Lemma cmeasure_bound v : (cmeasure v [] <= S M0 * S M0)%nat.
Proof.
  unfold cmeasure. pose proof (filter_le (fun w => Qltb (value_at data v) (value_at data w)) (voxels nx ny nz)) as B. fold (higher_than v) in B.
  assert (U : (unseen [v] <= M0)%nat) by apply filter_le. nia.
Qed.
Lemma pass_completes sched : (forall t, (t < length vs)%nat -> (step_bound <= count_occ Nat.eq_dec sched t)%nat) ->
  forallb finished (snd (pass_threads nx ny nz data nbs grad mx m0 sched)) = true.
Proof.
  intros C. unfold pass_threads.
  assert (K : forall sched st, INV st -> forall t v th th' k, nth_error vs t = Some v -> nth_error (snd st) t = Some th ->
     nth_error (snd (run_threads nx ny nz data nbs grad mx sched st)) t = Some th' -> tmeasure v th k ->
     tmeasure v th' (k - count_occ Nat.eq_dec sched t)).
  { clear C sched. induction sched as [|a r IH]; intros st I t v th th' k E1 E2 E3 Km; cbn [run_threads fold_left count_occ] in *.
    - rewrite Nat.sub_0_r. congruence.
    - destruct (INV_step st a I) as [I' ME].
      destruct (nth_error (snd (rsched nx ny nz data nbs grad mx st a)) t) as [th1|] eqn:E4.
      + pose proof (ME k t v th th1 E1 E2 E4 Km) as K1. pose proof (IH _ I' t v th1 th' _ E1 E4 E3 K1) as K2.
        destruct (Nat.eq_dec a t) as [->|NE]; [rewrite Nat.eqb_refl in K2|destruct (Nat.eqb_spec a t); [congruence|]]; [|exact K2].
        replace (k - S (count_occ Nat.eq_dec r t))%nat with (pred k - count_occ Nat.eq_dec r t)%nat by lia. exact K2.
      + exfalso. apply nth_error_None in E4. destruct I as (_ & L1 & _), I' as (_ & L2 & _).
        assert (t < length (snd st))%nat by (apply nth_error_Some; congruence). lia. }
  apply forallb_forall. intros th' Hin. apply In_nth_error in Hin as (t & Et).
  pose proof (INV_run sched _ INV_start) as (_ & Len & _).
  assert (Lt : (t < length vs)%nat) by (rewrite <- Len; apply nth_error_Some; congruence).
  destruct (nth_error vs t) as [v|] eqn:Ev; [|apply nth_error_None in Ev; lia].
  assert (E2 : nth_error (snd (m0, map RStart vs)) t = Some (RStart v)) by (cbn [snd]; now rewrite nth_error_map, Ev).
  pose proof (K sched _ INV_start t v (RStart v) th' step_bound Ev E2 Et) as Kt.
  assert (Km : tmeasure v (RStart v) step_bound).
  { cbn [tmeasure]. rewrite map_length. pose proof (cmeasure_bound v). unfold step_bound. lia. }
  specialize (Kt Km). specialize (C t Lt). replace (step_bound - count_occ Nat.eq_dec sched t)%nat with 0%nat in Kt by lia.
  destruct th'; cbn [tmeasure] in Kt; try lia; [|reflexivity]. destruct Kt as (pv & _ & _ & Kt). lia.
Qed.
End Pass.

(** ** the destination of a climb as a function *)
Fixpoint walk (k : nat) (pos : Z * Z * Z) (td : q3) (path : list (Z * Z * Z)) : Z * Z * Z :=
  match k with
  | O => pos
  | S k' => if value_at mx pos then pos
            else let '(n, td') := nstep (value_at vac (fst (tgt pos td))) pos td (map (flat ny nz) (pos :: path)) in
                 walk k' n td' (pos :: path)
  end.
Lemma walk_spec k : forall pos td path, (cmeasure pos path < k)%nat -> grid pos -> value_at vac pos = false -> le3 td (1 # 2) -> Forall grid path ->
  climbing pos td path (walk k pos td path) /\ ismax (walk k pos td path).
Proof.
  induction k as [|k IH]; intros pos td path Lk G V T F; [lia|]. cbn [walk].
  destruct (value_at mx pos) eqn:M.
  - split; [now apply cl_end|now apply Hmx].
  - pose proof (climb_step_spec pos td path (value_at vac (fst (tgt pos td))) G V M T F (conj (fun e => e) (fun e => e))) as K.
    destruct (nstep _ pos td _) as [n td']. destruct K as (Gn & Vn & Tn & C & LM).
    destruct (IH n td' (pos :: path)) as [Hm Tm]; auto; [lia].
Qed.
Definition goal (v : Z * Z * Z) : Z * Z * Z := walk (S (cmeasure v [])) v (0, 0, 0)%Q [].
Lemma goal_spec v : grid v -> value_at vac v = false -> climbs v (goal v) /\ ismax (goal v).
Proof. intros G V. apply walk_spec; auto using le3_zero. Qed.
Lemma goal_max v : ismax v -> goal v = v.
Proof.
  intros T. pose proof T as (G & V & _). destruct (goal_spec v G V) as [K _]. apply climbs_max in K; [exact K|now apply Hmx].
Qed.

(** ** the refinement loop *)
Section Loop.
Variable label : Z * Z * Z -> Z.
Variable start : Z * Z * Z -> bool.
Hypothesis Hlab : forall u, grid u -> (value_at vac u = true -> label u = 0) /\ (value_at vac u = false -> 0 < label u).
Hypothesis Hstart : forall u, grid u -> start u = true -> value_at vac u = false.
Notation refined := (refined nx ny nz data nbs grad vacP topP (fun v => grid v /\ start v = true) label).
Notation stp := (step_to nx ny nz).

Definition fresh (m : memory) u := m_lab m u = label u /\ m_mask m u = false /\ start u = false.
Definition pending (m : memory) u := refined u /\ m_mask m u = true /\ m_lab m u = - label u.
Definition settled (m : memory) u := refined u /\ m_mask m u = false /\ m_lab m u = - label (goal u) /\
  (label (goal u) <> label u -> forall s, In s (map fst nbs) -> value_at vac (stp u s) = false -> m_lab m (stp u s) < 0).
Definition LI (m : memory) : Prop := forall u, grid u ->
  (value_at vac u = true -> m_lab m u = 0 /\ m_mask m u = false) /\
  (value_at vac u = false -> fresh m u \/ pending m u \/ settled m u).

Lemma max_pos u : ismax u -> 0 < label u.
Proof. intros (G & V & _). now apply Hlab. Qed.
Lemma goal_pos u : grid u -> value_at vac u = false -> 0 < label (goal u).
Proof. intros G V. apply max_pos. now apply goal_spec. Qed.

Lemma LI_zero m u : LI m -> grid u -> (m_lab m u = 0 <-> value_at vac u = true).
Proof.
  intros I G. destruct (I u G) as [I1 I2]. split.
  - intros E. destruct (value_at vac u) eqn:V; [reflexivity|]. pose proof (proj2 (Hlab u G) V). pose proof (goal_pos u G V).
    destruct (I2 eq_refl) as [(K & _)|[(_ & _ & K)|(_ & _ & K & _)]]; lia.
  - intros V. now apply I1.
Qed.
Lemma LI_neg m u : LI m -> grid u -> m_mask m u = true -> m_lab m u < 0.
Proof.
  intros I G E. destruct (I u G) as [I1 I2]. destruct (value_at vac u) eqn:V; [destruct (I1 eq_refl); congruence|].
  destruct (I2 eq_refl) as [(_ & K & _)|[(_ & _ & K)|(_ & K & _)]]; try congruence. pose proof (proj2 (Hlab u G) V). lia.
Qed.
Lemma LI_max m u : LI m -> ismax u -> Z.abs (m_lab m u) = label u.
Proof.
  intros I T. pose proof T as (G & V & _). destruct (I u G) as [_ I2]. pose proof (max_pos u T).
  destruct (I2 V) as [(K & _)|[(_ & _ & K)|(_ & _ & K & _)]]; [lia|lia|]. rewrite (goal_max u T) in K. lia.
Qed.

Notation undone m := (length (filter (fun u => (0 <? m_lab m u) || m_mask m u) (voxels nx ny nz))).

Lemma LI_pass m sched m' ths : LI m -> pass_threads nx ny nz data nbs grad mx m sched = (m', ths) -> forallb finished ths = true ->
  LI m' /\ (refinement_indices nx ny nz m <> [] -> (undone m' < undone m)%nat) /\
  (existsb reassigned ths = false -> forall u, grid u -> m_mask m' u = false).
Proof.
  intros I E F. assert (Em : m = {| m_lab := m_lab m; m_mask := m_mask m |}) by now destruct m.
  rewrite Em in E. destruct (pass_spec (m_lab m) (m_mask m) goal goal_spec (fun u => LI_zero m u I) (fun u => LI_neg m u I) sched m' ths E F) as [P R].
  assert (CUR : forall u, grid u -> value_at vac u = false -> Z.abs (m_lab m (goal u)) = label (goal u)).
  { intros u G V. apply (LI_max m); [exact I|now apply goal_spec]. }
  assert (NEG : forall u, grid u -> m_lab m u < 0 -> m_lab m' u < 0).
  { intros u G K. destruct (P u G) as [P1 P2]. destruct (m_mask m u) eqn:Mu.
    - destruct (P1 eq_refl) as [-> _]. assert (V : value_at vac u = false).
      { destruct (value_at vac u) eqn:V; [|reflexivity]. apply (LI_zero m u I G) in V. lia. }
      rewrite (CUR u G V). pose proof (goal_pos u G V). lia.
    - destruct (P2 eq_refl) as [Q1 Q2]. destruct (m_mask m' u); [destruct (Q1 eq_refl) as (? & _); lia|]. destruct (Q2 eq_refl) as [-> _]. exact K. }
  assert (PEND : forall u, grid u -> m_mask m u = true -> pending m u).
  { intros u G Mu. destruct (I u G) as [I1 I2]. destruct (value_at vac u) eqn:V; [destruct (I1 eq_refl); congruence|].
    destruct (I2 eq_refl) as [(_ & K & _)|[K|(_ & K & _)]]; [congruence|exact K|congruence]. }
  split; [|split].
  - intros u G. destruct (P u G) as [P1 P2]. destruct (I u G) as [I1 I2]. split.
    + intros V. destruct (I1 V) as [K1 K2]. destruct (P2 K2) as [Q1 Q2]. destruct (m_mask m' u); [destruct (Q1 eq_refl); lia|].
      destruct (Q2 eq_refl) as [-> _]. auto.
    + intros V. destruct (I2 V) as [(K1 & K2 & K3)|[(K1 & K2 & K3)|(K1 & K2 & K3 & K4)]].
      * destruct (P2 K2) as [Q1 Q2]. destruct (m_mask m' u) eqn:Mu.
        -- right; left. destruct (Q1 eq_refl) as (_ & (v & s & (Gv & Sv) & Cv & Hs & Eu) & J). split; [|split; [exact Mu|congruence]].
           destruct (PEND v Gv Sv) as (R1 & _ & R3).
           assert (Vv : value_at vac v = false). { destruct (value_at vac v) eqn:Vv; [|reflexivity]. destruct (I v Gv) as [Iv _]. destruct (Iv Vv). congruence. }
           apply (rf_spread _ _ _ _ _ _ _ _ _ _ v (goal v) s u R1); [apply goal_spec; assumption| |exact Hs| |cbv beta; congruence].
           ++ rewrite (CUR v Gv Vv), R3 in Cv. pose proof (proj2 (Hlab v Gv) Vv). lia.
           ++ rewrite <- Eu. now apply nb_step.
        -- left. destruct (Q2 eq_refl) as [J _]. split; [congruence|auto].
      * right; right. destruct (P1 K2) as [J1 J2]. split; [exact K1|]. split; [exact J2|]. rewrite (CUR u G V) in J1. split; [exact J1|].
        intros C s Hs Vn. destruct (nb_step u s G Hs) as [_ Gn].
        assert (m_lab m (stp u s) <> 0) by (rewrite (LI_zero m _ I Gn); congruence).
        destruct (Z.lt_trichotomy (m_lab m (stp u s)) 0) as [K|[K|K]]; [now apply NEG|contradiction|].
        destruct (P (stp u s) Gn) as [_ P2n]. assert (Mn : m_mask m (stp u s) = false).
        { destruct (m_mask m (stp u s)) eqn:Mn; [|reflexivity]. pose proof (LI_neg m _ I Gn Mn). lia. }
        destruct (P2n Mn) as [Q1 Q2]. destruct (m_mask m' (stp u s)); [destruct (Q1 eq_refl) as (_ & _ & ->); lia|].
        exfalso. destruct (Q2 eq_refl) as [_ Q]. apply (Q K). exists u, s. repeat split; auto. rewrite (CUR u G V), K3. pose proof (proj2 (Hlab u G) V). lia.
      * right; right. destruct (P2 K2) as [Q1 Q2]. pose proof (goal_pos u G V). destruct (m_mask m' u) eqn:Mu; [destruct (Q1 eq_refl); lia|].
        destruct (Q2 eq_refl) as [J _]. split; [exact K1|]. split; [exact Mu|]. split; [congruence|]. intros C s Hs Vn. apply NEG; [now apply nb_step|]. now apply K4.
  - intros NE. destruct (refinement_indices nx ny nz m) as [|v r] eqn:ER; [congruence|].
    assert (Hv : In v (refinement_indices nx ny nz m)) by (rewrite ER; now left). unfold refinement_indices in Hv. apply filter_In in Hv as [Hv Mv].
    pose proof Hv as Gv. apply in_voxels in Gv. destruct (P v Gv) as [P1 _]. destruct (P1 Mv) as [J1 J2].
    assert (LE : forall y, In y (voxels nx ny nz) -> (0 <? m_lab m' y) || m_mask m' y = true -> (0 <? m_lab m y) || m_mask m y = true).
    { intros y Hy' K. apply in_voxels in Hy'. destruct (m_mask m y) eqn:My; [now rewrite orb_true_r|]. rewrite orb_false_r.
      destruct (P y Hy') as [_ P2]. destruct (P2 My) as [Q1 Q2]. apply Z.ltb_lt. destruct (m_mask m' y) eqn:My'.
      - destruct (Q1 eq_refl); lia.
      - rewrite orb_false_r in K. apply Z.ltb_lt in K. destruct (Q2 eq_refl) as [J _]. lia. }
    assert (Pv : (0 <? m_lab m' v) || m_mask m' v = false).
    { rewrite J1, J2, orb_false_r. apply Z.ltb_ge. lia. }
    assert (Qv : (0 <? m_lab m v) || m_mask m v = true) by (rewrite Mv; apply orb_true_r).
    clear - LE Hv Pv Qv. revert LE Hv. generalize (voxels nx ny nz). induction l as [|y t IH]; intros LE Hv; [destruct Hv|]. cbn [filter].
    assert (MO : (length (filter (fun u => (0 <? m_lab m' u)%Z || m_mask m' u) t) <= length (filter (fun u => (0 <? m_lab m u)%Z || m_mask m u) t))%nat).
    { apply filter_mono. intros x Hx'. apply LE. now right. }
    destruct Hv as [->|Hv].
    + rewrite Pv, Qv. cbn [length]. lia.
    + assert (IH' := IH (fun x Hx' => LE x (or_intror Hx')) Hv). pose proof (LE y (or_introl eq_refl)) as LEy.
      destruct ((0 <? m_lab m' y) || m_mask m' y); [rewrite LEy by reflexivity; cbn [length]; lia|].
      destruct ((0 <? m_lab m y) || m_mask m y); cbn [length]; lia.
  - intros NR u G. destruct (m_mask m' u) eqn:Mu; [|reflexivity]. exfalso. destruct (P u G) as [P1 P2].
    destruct (m_mask m u) eqn:Mo; [destruct (P1 eq_refl); congruence|]. destruct (P2 eq_refl) as [Q1 _]. destruct (Q1 Mu) as (_ & (v & s & Sv & Cv & _) & _).
    assert (existsb reassigned ths = true) by (apply R; eauto). congruence.
Qed.

(** What an execution of the loop leaves behind. *)
Definition refined_labels (m : memory) : Prop := forall u, grid u ->
  (value_at vac u = true -> m_lab m u = 0) /\
  (value_at vac u = false -> (refined u /\ m_lab m u = - label (goal u)) \/ (~ refined u /\ m_lab m u = label u)).

Lemma LI_end m : LI m -> (forall u, grid u -> m_mask m u = false) -> refined_labels m.
Proof.
  intros I Z.
  assert (NEGR : forall u, refined u -> grid u -> m_lab m u < 0).
  { induction 1 as [u [G S]|v mm s w R IH C NE Hs PT NV]; intros Gw.
    - pose proof (Hstart u G S) as V. destruct (I u G) as [_ I2]. pose proof (goal_pos u G V).
      destruct (I2 V) as [(_ & _ & K)|[(_ & K & _)|(_ & _ & K & _)]]; [congruence|rewrite Z in K by exact G; congruence|lia].
    - assert (Gv : grid v).
      { clear - R Hx0 Hy0 Hz0. destruct R as [v [G _]|v mm s w R C NE Hs PT NV]; [exact G|]. eapply ptarget_in_grid; eauto. }
      specialize (IH Gv). assert (Vv : value_at vac v = false).
      { destruct (value_at vac v) eqn:V; [|reflexivity]. apply (LI_zero m v I Gv) in V. lia. }
      destruct (I v Gv) as [_ I2]. destruct (goal_spec v Gv Vv) as [CG _]. pose proof (climbs_fun v mm (goal v) Gv C CG) as ->.
      pose proof (proj2 (Hlab v Gv) Vv).
      destruct (I2 Vv) as [(K & _)|[(_ & K & _)|(_ & _ & _ & K)]]; [lia|rewrite Z in K by exact Gv; congruence|].
      destruct (nb_step v s Gv Hs) as [PT' _]. assert (w = stp v s) by (eapply ptarget_fun; eauto). subst w. apply K; auto.
      cbv beta in NV. now destruct (value_at vac (stp v s)). }
  intros u G. destruct (I u G) as [I1 I2]. split; [intros V; now apply I1|]. intros V.
  destruct (I2 V) as [(K & _ & _)|[(_ & K & _)|(K1 & _ & K & _)]]; [|rewrite Z in K by exact G; congruence|left; auto].
  right. split; [|exact K]. intros R. pose proof (NEGR u R G). pose proof (proj2 (Hlab u G) V). lia.
Qed.

Lemma LI_loop scheds : forall m m', LI m -> refine_loop nx ny nz data nbs grad mx scheds m = Some m' -> refined_labels m'.
Proof.
  assert (EMP : forall m, refinement_indices nx ny nz m = [] -> forall u, grid u -> m_mask m u = false).
  { intros m E u G. destruct (m_mask m u) eqn:K; [|reflexivity]. assert (In u (refinement_indices nx ny nz m)) by (unfold refinement_indices; apply filter_In; split; [now apply in_voxels|exact K]).
    rewrite E in H. destruct H. }
  induction scheds as [|s r IH]; intros m m' I E; cbn [refine_loop] in E.
  - destruct (refinement_indices nx ny nz m) eqn:ER; [|discriminate]. injection E as <-. apply LI_end; [exact I|now apply EMP].
  - destruct (refinement_indices nx ny nz m) eqn:ER; [injection E as <-; apply LI_end; [exact I|now apply EMP]|].
    destruct (pass_threads nx ny nz data nbs grad mx m s) as [m1 ths] eqn:EP. destruct (forallb finished ths) eqn:F; [|discriminate].
    destruct (LI_pass m s m1 ths I EP F) as (I1 & _ & Z). destruct (existsb reassigned ths); [now apply (IH m1)|].
    injection E as <-. apply LI_end; [exact I1|auto].
Qed.

Lemma loop_completes scheds : forall m, LI m -> (undone m <= length scheds)%nat ->
  (forall s t, In s scheds -> (t < M0)%nat -> (step_bound <= count_occ Nat.eq_dec s t)%nat) ->
  exists m', refine_loop nx ny nz data nbs grad mx scheds m = Some m'.
Proof.
  induction scheds as [|s r IH]; intros m I B C; cbn [refine_loop].
  - destruct (refinement_indices nx ny nz m) as [|v t] eqn:ER; [eauto|]. exfalso.
    assert (Hv : In v (refinement_indices nx ny nz m)) by (rewrite ER; now left). unfold refinement_indices in Hv. apply filter_In in Hv as [Hv Mv].
    assert (In v (filter (fun u => (0 <? m_lab m u) || m_mask m u) (voxels nx ny nz))) by (apply filter_In; split; [exact Hv|rewrite Mv; apply orb_true_r]).
    destruct (filter (fun u => (0 <? m_lab m u) || m_mask m u) (voxels nx ny nz)); [destruct H|cbn in B; lia].
  - destruct (refinement_indices nx ny nz m) as [|v t] eqn:ER; [eauto|].
    destruct (pass_threads nx ny nz data nbs grad mx m s) as [m1 ths] eqn:EP.
    assert (F : forallb finished ths = true).
    { assert (Em : m = {| m_lab := m_lab m; m_mask := m_mask m |}) by now destruct m.
      pose proof (pass_completes (m_lab m) (m_mask m) goal goal_spec (fun u => LI_zero m u I) (fun u => LI_neg m u I) s) as K.
      rewrite <- Em, EP in K. apply K. intros j Hj. apply C; [now left|]. unfold refinement_indices in Hj. eapply Nat.lt_le_trans; [exact Hj|apply filter_le]. }
    rewrite F. destruct (LI_pass m s m1 ths I EP F) as (I1 & D & _). destruct (existsb reassigned ths); [|eauto].
    apply IH; [exact I1| |intros s' t' Hs'; apply C; now right]. assert (undone m1 < undone m)%nat by (apply D; congruence). cbn [length] in B. lia.
Qed.

Definition first_memory : memory := {| m_lab := fun v => if start v then - label v else label v; m_mask := start |}.
Lemma LI_first : LI first_memory.
Proof.
  intros u G. split.
  - intros V. cbn [first_memory m_lab m_mask]. destruct (start u) eqn:S; [rewrite (Hstart u G S) in V; discriminate|]. split; [now apply Hlab|reflexivity].
  - intros V. destruct (start u) eqn:S.
    + right; left. split; [now apply rf_start|]. cbn [first_memory m_lab m_mask]. rewrite S. auto.
    + left. split; [|split]; cbn [first_memory m_lab m_mask]; now rewrite ?S.
Qed.

Theorem refine_correct scheds m : refine_loop nx ny nz data nbs grad mx scheds first_memory = Some m -> refined_labels m.
Proof. apply LI_loop, LI_first. Qed.
Theorem refine_completes scheds : (M0 <= length scheds)%nat ->
  (forall s t, In s scheds -> (t < M0)%nat -> (step_bound <= count_occ Nat.eq_dec s t)%nat) ->
  exists m, refine_loop nx ny nz data nbs grad mx scheds first_memory = Some m.
Proof.
  intros B C. apply loop_completes; [apply LI_first| |exact C]. pose proof (filter_le (fun u => (0 <? m_lab first_memory u) || m_mask first_memory u) (voxels nx ny nz)). lia.
Qed.
End Loop.
End Near.
