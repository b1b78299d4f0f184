From Verif Require Import Base GridModel GridProofs NeighModel NeighSpec NeighProofs RootsModel RootsSpec
  RootsProofs OngridProofs UnionModel UnionSpec UnionProofs LabelsModel LabelsSpec.
From Coq Require Import ZifyBool ZifyNat.

(** ** Union-find on the active part of an array *)
Definition uf_on (E : list (nat * nat)) (p : list Z) : Prop :=
  good_pointers p /\ (forall x y, In (x, y) E -> active p x /\ active p y) /\
  (forall i j, active p i -> active p j -> (same_root p i j <-> connected E i j)).

Lemma uf_on_union E p q x y rx ry : uf_on E p -> active p x -> active p y ->
  reaches p x rx -> reaches p y ry -> good_pointers q ->
  (forall i, active q i <-> active p i) ->
  (forall i s, reaches p i s -> reaches q i (if Nat.eqb s rx then ry else s)) ->
  uf_on (E ++ [(x, y)]) q.
Proof.
  intros (G & B & C) Hx Hy Rx Ry G' AA FW. split; [exact G'|]. split.
  { intros u v H. rewrite !AA. apply in_app_or in H as [H|[[= <- <-]|[]]]; auto. }
  assert (EXT : forall u v, connected E u v -> connected (E ++ [(x, y)]) u v).
  { intros u v. apply connected_mono. intros z Hz. apply in_or_app. now left. }
  assert (EDGE : connected (E ++ [(x, y)]) x y) by (apply conn_edge, in_or_app; right; now left).
  assert (TO : forall i s, active p i -> reaches p i s -> connected E i s /\ active p s).
  { intros i s Hi R. pose proof (reaches_root _ _ _ R) as Hr.
    assert (active p s) by (exists (Z.of_nat s); split; [exact Hr|lia]). split; [|assumption].
    apply C; [exact Hi|assumption|]. exists s. split; [exact R|now constructor]. }
  intros i j Hi Hj. rewrite AA in Hi, Hj.
  destruct (good_active_reaches p i G Hi) as (si & Ri).
  destruct (good_active_reaches p j G Hj) as (sj & Rj).
  assert (ROOT : forall i s, active p i -> reaches p i s ->
     connected (E ++ [(x, y)]) i (if Nat.eqb s rx then ry else s)).
  { intros i0 s0 Hi0 R0. destruct (TO i0 s0 Hi0 R0) as [T _]. destruct (Nat.eqb_spec s0 rx) as [->|N]; [|now apply EXT].
    eapply conn_trans; [apply EXT; exact T|].
    eapply conn_trans; [apply conn_sym, EXT; exact (proj1 (TO x rx Hx Rx))|].
    eapply conn_trans; [exact EDGE|]. apply EXT. exact (proj1 (TO y ry Hy Ry)). }
  split.
  - intros (r & R1 & R2).
    pose proof (reaches_fun q i _ (FW _ _ Ri) _ R1) as E1. pose proof (reaches_fun q j _ (FW _ _ Rj) _ R2) as E2.
    eapply conn_trans; [exact (ROOT i si Hi Ri)|]. rewrite E1, <- E2. apply conn_sym. exact (ROOT j sj Hj Rj).
  - intros CN.
    assert (KEY : forall u v, connected (E ++ [(x, y)]) u v ->
       u = v \/ (active p u /\ active p v /\
       forall a b, reaches p u a -> reaches p v b ->
       (if Nat.eqb a rx then ry else a) = (if Nat.eqb b rx then ry else b))).
    { intros u v H. induction H as [u|u v H|u v H IH|u v w H1 IH1 H2 IH2].
      - now left.
      - right. apply in_app_or in H as [H|[[= <- <-]|[]]].
        + destruct (B u v H) as [Hu Hv]. split; [exact Hu|]. split; [exact Hv|]. intros a b Ra Rb.
          destruct (proj2 (C u v Hu Hv) (conn_edge _ _ _ H)) as (r & Ru & Rv).
          rewrite (reaches_fun p u a Ra r Ru), (reaches_fun p v b Rb r Rv). reflexivity.
        + split; [exact Hx|]. split; [exact Hy|]. intros a b Ra Rb.
          rewrite (reaches_fun p x a Ra rx Rx), (reaches_fun p y b Rb ry Ry), Nat.eqb_refl.
          destruct (Nat.eqb ry rx); reflexivity.
      - destruct IH as [->|(Hu & Hv & K)]; [now left|]. right. split; [exact Hv|]. split; [exact Hu|].
        intros a b Ra Rb. symmetry. now apply K.
      - destruct IH1 as [->|(Hu & Hv & K)]; [exact IH2|]. destruct IH2 as [<-|(Hv' & Hw & K')]; [right; auto|].
        right. split; [exact Hu|]. split; [exact Hw|]. intros a b Ra Rb.
        destruct (good_active_reaches p v G Hv) as (c & Rc). rewrite (K a c Ra Rc). now apply K'. }
    destruct (KEY i j CN) as [->|(_ & _ & K)].
    + eexists. split; eapply FW; eauto.
    + exists (if Nat.eqb si rx then ry else si). split; [now apply FW|]. rewrite (K si sj Ri Rj). now apply FW.
Qed.

Definition nat_pairs (req : list (Z * Z)) : list (nat * nat) :=
  map (fun ab : Z * Z => (Z.to_nat (fst ab), Z.to_nat (snd ab))) req.

Lemma run_unions_correct fuel req : forall E p, uf_on E p -> (length p <= fuel)%nat ->
  (forall a b, In (a, b) req -> exists x y, a = Z.of_nat x /\ b = Z.of_nat y /\ active p x /\ active p y) ->
  exists q, run_unions fuel req p = Done q /\ length q = length p /\ uf_on (E ++ nat_pairs req) q /\
    (forall i, active q i <-> active p i).
Proof.
  induction req as [|[a b] t IH]; intros E p I Hf HB; cbn [run_unions nat_pairs map].
  - exists p. rewrite app_nil_r. split; [reflexivity|]. split; [reflexivity|]. split; [exact I|]. reflexivity.
  - destruct (HB a b (or_introl eq_refl)) as (x & y & -> & -> & Ax & Ay). pose proof I as (G & B & C).
    destruct (union_correct fuel p x y G Ax Ay Hf) as (q & rx & ry & E1 & Rx & Ry & G' & L & AA & FW & _).
    rewrite E1. cbn [obind].
    pose proof (uf_on_union E p q x y rx ry I Ax Ay Rx Ry G' AA FW) as I'.
    destruct (IH (E ++ [(x, y)]) q I' ltac:(lia)) as (q' & E2 & L2 & I2 & AA2).
    { intros a b H. destruct (HB a b (or_intror H)) as (x' & y' & -> & -> & A1 & A2).
      exists x', y'. rewrite !AA. auto. }
    exists q'. rewrite <- app_assoc in I2. cbn [fst snd]. rewrite !Nat2Z.id.
    split; [exact E2|]. split; [congruence|]. split; [exact I2|]. intros i. rewrite AA2. apply AA.
Qed.

Lemma lookup_none l flats : lookup_flat l flats = None <-> ~ In l (map fst flats).
Proof.
  induction flats as [|[a b] t IH]; cbn [lookup_flat map fst In].
  - split; auto.
  - destruct (Z.eqb_spec a l) as [->|N]; [split; [discriminate|intros H; exfalso; auto]|]. rewrite IH. intuition.
Qed.

Lemma lookup_some l flats b : lookup_flat l flats = Some b -> In (l, b) flats.
Proof.
  induction flats as [|[a c] t IH]; cbn [lookup_flat]; [discriminate|].
  destruct (Z.eqb_spec a l) as [->|N]; [intros [= ->]; now left|]. intros H. right. auto.
Qed.

Lemma lookup_app l f1 f2 : lookup_flat l (f1 ++ f2) =
  match lookup_flat l f1 with Some b => Some b | None => lookup_flat l f2 end.
Proof.
  induction f1 as [|[a c] t IH]; cbn [lookup_flat app]; [reflexivity|]. destruct (a =? l); auto.
Qed.

Lemma qfloor_spec q : (inject_Z (qfloor q) <= q < inject_Z (qfloor q) + 1)%Q.
Proof.
  destruct q as [a b]. unfold qfloor, inject_Z, Qle, Qlt, Qplus. cbn [Qnum Qden].
  pose proof (Z.div_mod a (Z.pos b) ltac:(lia)). pose proof (Z.mod_pos_bound a (Z.pos b) ltac:(lia)). nia.
Qed.

Lemma qround_spec q : (inject_Z (qround q) - (1 # 2) <= q <= inject_Z (qround q) + (1 # 2))%Q.
Proof.
  pose proof (qfloor_spec q) as F. unfold qround. set (f := qfloor q) in *.
  assert (P1 : (inject_Z (f + 1) == inject_Z f + 1)%Q) by (rewrite inject_Z_plus; reflexivity).
  destruct (Qltb_spec (q - inject_Z f) (1 # 2)); [lra|].
  destruct (Qltb_spec (1 # 2) (q - inject_Z f)); [lra|]. destruct (Z.even f); lra.
Qed.

Lemma qmod1_range q : (0 <= qmod1 q < 1)%Q.
Proof. pose proof (qfloor_spec q). unfold qmod1. lra. Qed.

Lemma frac_mul i n : 0 < n -> (inject_Z i / inject_Z n * inject_Z n == inject_Z i)%Q.
Proof. intros H. field. intros K. apply (inject_Z_injective n 0) in K. lia. Qed.

Lemma frac_range i n : 0 <= i < n -> (0 <= inject_Z i / inject_Z n < 1)%Q.
Proof.
  intros H. assert (P : (0 < inject_Z n)%Q) by (change 0%Q with (inject_Z 0); rewrite <- Zlt_Qlt; lia).
  split.
  - apply Qle_shift_div_l; [exact P|]. rewrite Qmult_0_l. change 0%Q with (inject_Z 0). rewrite <- Zle_Qle. lia.
  - apply Qlt_shift_div_r; [exact P|]. rewrite Qmult_1_l. rewrite <- Zlt_Qlt. lia.
Qed.

Lemma NoDup_map_inj_in {A B} (f : A -> B) l : NoDup l ->
  (forall a b, In a l -> In b l -> f a = f b -> a = b) -> NoDup (map f l).
Proof.
  induction 1 as [|a l Ha ND IH]; intros H; cbn [map]; constructor.
  - intros K. apply in_map_iff in K as (b & E & Hb). assert (b = a) by (apply H; auto; [now right|now left]). now subst.
  - apply IH. intros u v Hu Hv. apply H; now right.
Qed.

Lemma np_unique_NoDup l : NoDup (np_unique l).
Proof.
  pose proof (np_unique_sorted l) as H. induction H as [|a t H IH F]; constructor; [|exact IH].
  intros K. rewrite Forall_forall in F. specialize (F a K). lia.
Qed.

Section L.
Variables nx ny nz : Z.
Hypothesis Hx : 0 < nx.
Hypothesis Hy : 0 < ny.
Hypothesis Hz : 0 < nz.
Notation N := (Z.to_nat (nx * ny * nz)).
Notation grid := (in_grid nx ny nz).
Notation num := (voxel_number ny nz).
Notation fl := (vx_flat ny nz).
Notation mg := (mget ny nz).

Variable data : arr3 Q.
Variable nbs : list (offset * Q).
Hypothesis Hnbs : forall s d, In (s, d) nbs -> unit_offset s /\ (0 < d)%Q.
Variable vac : arr3 bool.
(** The vacuum lies strictly below everything else. *)
Hypothesis Hvac : forall v w, grid v -> grid w -> value_at vac w = true -> value_at vac v = false ->
  (value_at data w < value_at data v)%Q.

Notation ismax := (is_maximum nx ny nz data (map fst nbs) vac).
Notation falsemax := (false_maximum nx ny nz data (map fst nbs) vac).
Notation best v := (snd (get_best_neighbor nx ny nz data v nbs)).
Notation lhigh := (locally_highest nx ny nz data (map fst nbs)).

Lemma fl_num v : grid v -> fl v = Z.of_nat (num v).
Proof.
  intros G. rewrite <- flat_voxel_number. destruct v as [[i j] k].
  pose proof (coords_flat_range i j k nx ny nz G) as R. unfold vx_flat, flat. lia.
Qed.

Lemma fl_of v : grid v -> vx_of ny nz (fl v) = v.
Proof. intros G. rewrite fl_num by exact G. unfold vx_of. now apply (unflat_voxel_number nx ny nz). Qed.

Lemma num_inj v w : grid v -> grid w -> num v = num w -> v = w.
Proof.
  intros G1 G2 E. rewrite <- (unflat_voxel_number nx ny nz v G1), E. now apply (unflat_voxel_number nx ny nz).
Qed.

Lemma fl_inj v w : grid v -> grid w -> fl v = fl w -> v = w.
Proof. intros G1 G2 E. rewrite !fl_num in E by assumption. apply num_inj; auto. lia. Qed.

Lemma mg_num m v : mg m v = nth (num v) m false.
Proof. unfold mget, vx_flat. now rewrite flat_voxel_number. Qed.

Lemma mset_get m v w b : length m = N -> grid v -> grid w ->
  mg (mset ny nz m v b) w = if vx_eqb v w then b else mg m w.
Proof.
  intros L G1 G2. rewrite !mg_num. unfold mset, vx_flat. rewrite flat_voxel_number, nth_upd.
  pose proof (voxel_number_lt nx ny nz Hx Hy Hz v G1). rewrite L.
  replace (Nat.ltb (num v) N) with true by lia. rewrite andb_true_r.
  destruct v as [[a1 a2] a3], w as [[b1 b2] b3]. cbn [vx_eqb].
  destruct (Nat.eqb_spec (num (a1, a2, a3)) (num (b1, b2, b3))) as [E|E].
  - apply num_inj in E; auto. injection E as -> -> ->. rewrite !Z.eqb_refl. reflexivity.
  - destruct ((a1 =? b1) && (a2 =? b2) && (a3 =? b3)) eqn:K; [|reflexivity].
    exfalso. apply E. f_equal. f_equal; [f_equal|]; lia.
Qed.

Lemma vx_eqb_eq v w : vx_eqb v w = true <-> v = w.
Proof.
  destruct v as [[a1 a2] a3], w as [[b1 b2] b3]. cbn [vx_eqb]. rewrite !andb_true_iff, !Z.eqb_eq.
  split; [intros [[-> ->] ->]; reflexivity|intros [= -> -> ->]; auto].
Qed.

Lemma unit_ts s : In s (map fst nbs) -> unit_offset s.
Proof. intros H. apply in_map_iff in H as ([s' d] & <- & Hi). now apply (Hnbs s' d). Qed.

(** ** maxima *)
Variable mask0 : list bool.
Hypothesis Hmask0 : length mask0 = N.
Hypothesis Hmx : forall v, grid v -> (nth (num v) mask0 false = true <-> ismax v).
Variable maxima : list (Z * Z * Z).
Hypothesis Hnodup : NoDup maxima.
Hypothesis Hmaxima : forall v, In v maxima <-> grid v /\ nth (num v) mask0 false = true.

Lemma in_maxima v : In v maxima <-> ismax v.
Proof.
  rewrite Hmaxima. split; [intros [G H]; now apply Hmx|]. intros M. pose proof M as [G _]. split; [exact G|]. now apply Hmx.
Qed.

Lemma ismax_dec v : grid v -> ismax v \/ ~ ismax v.
Proof. intros G. destruct (nth (num v) mask0 false) eqn:E; [left; now apply Hmx|right]. intros M. apply Hmx in M; auto. congruence. Qed.

Lemma max_neigh_le v s : ismax v -> In s (map fst nbs) ->
  (rd data (step_to nx ny nz v s) <= rd data v)%Q.
Proof.
  intros (G & _ & H) Hs. change (@rd Q) with (@value_at Q). apply (H s); [exact Hs|].
  apply (step_to_periodic nx ny nz Hx Hy Hz); auto using unit_ts.
Qed.

(** Invariant of the reduction of false maxima. *)
Record RI (st : list bool * list (Z * Z)) : Prop := {
  ri_len : length (fst st) = N;
  ri_mask : forall v, grid v -> (mg (fst st) v = true <-> ismax v /\ lookup_flat (fl v) (snd st) = None);
  ri_flat : forall l b, In (l, b) (snd st) -> exists f w, grid w /\ l = fl f /\ b = fl w /\
              falsemax f /\ ~ ismax w /\ (value_at data w == value_at data f)%Q;
  ri_nodup : NoDup (map fst (snd st))
}.

Lemma falsemax_max f : falsemax f -> ismax f.
Proof. intros []; assumption. Qed.

Lemma RI_init : RI (mask0, []).
Proof.
  split; cbn [fst snd]; auto.
  - intros v G. rewrite mg_num, (Hmx v G). cbn [lookup_flat]. intuition.
  - intros l b [].
  - constructor.
Qed.

Lemma first_flat_some mask v l t : first_flat nx ny nz data mask v l = Some t ->
  exists s, In s l /\ t = step_to nx ny nz v s /\ (rd data v <= rd data t)%Q /\ mg mask t = false.
Proof.
  induction l as [|s rest IH]; cbn [first_flat]; [discriminate|].
  destruct (Qltb (rd data (step_to nx ny nz v s)) (rd data v) || mget ny nz mask (step_to nx ny nz v s)) eqn:E.
  - intros H. destruct (IH H) as (s' & Hi & K). exists s'. split; [now right|exact K].
  - intros [= <-]. exists s. split; [now left|]. apply orb_false_iff in E as [E1 E2].
    split; [reflexivity|]. split; [now apply Qltb_ge|exact E2].
Qed.

Lemma first_flat_none mask v l : first_flat nx ny nz data mask v l = None ->
  forall s, In s l -> (rd data (step_to nx ny nz v s) < rd data v)%Q \/ mg mask (step_to nx ny nz v s) = true.
Proof.
  induction l as [|s rest IH]; cbn [first_flat]; intros H s' Hs; [contradiction|].
  destruct (Qltb (rd data (step_to nx ny nz v s)) (rd data v) || mget ny nz mask (step_to nx ny nz v s)) eqn:E; [|discriminate].
  destruct Hs as [<-|Hs]; [|auto]. apply orb_true_iff in E as [E|E]; [left; now apply Qltb_lt|right; exact E].
Qed.

Lemma reduce_one_RI st v : RI st -> ismax v -> RI (reduce_one nx ny nz data nbs st v).
Proof.
  intros R M. destruct st as [mask flats]. cbn [reduce_one]. pose proof R as [R1 R2 R3 R4]. cbn [fst snd] in *.
  destruct (mget ny nz mask v) eqn:E; [|exact R]. pose proof M as (G & NV & H).
  destruct (first_flat nx ny nz data mask v (map fst nbs)) as [t|] eqn:F; [|exact R].
  destruct (first_flat_some _ _ _ _ F) as (s & Hs & -> & LE & MT).
  set (t := step_to nx ny nz v s) in *.
  assert (Gt : grid t) by (apply (step_to_in_grid nx ny nz); auto using unit_ts).
  assert (Pt : periodic_target nx ny nz v s t) by (apply (step_to_periodic nx ny nz Hx Hy Hz); auto using unit_ts).
  assert (EQ : (value_at data t == value_at data v)%Q).
  { pose proof (H s t Hs Pt). change (@rd Q) with (@value_at Q) in LE. lra. }
  assert (LV : level_neighbours nx ny nz data (map fst nbs) v t) by (exists s; auto).
  assert (NL : lookup_flat (fl v) flats = None) by (apply (R2 v G); exact E).
  (* the recorded neighbour *)
  assert (B : exists w, grid w /\ match lookup_flat (fl t) flats with Some b => b | None => fl t end = fl w /\
     ~ ismax w /\ (value_at data w == value_at data v)%Q /\ falsemax v).
  { destruct (lookup_flat (fl t) flats) as [b|] eqn:LT.
    - apply lookup_some in LT. destruct (R3 _ _ LT) as (f & w & Gw & Ef & -> & FM & NM & EV).
      pose proof (falsemax_max f FM) as (Gf & _). apply fl_inj in Ef; auto. subst f.
      exists w. split; [exact Gw|]. split; [reflexivity|]. split; [exact NM|]. split; [lra|].
      eapply fm_step; eauto.
    - assert (NM : ~ ismax t).
      { intros MM. assert (mg mask t = true) by (apply R2; auto). congruence. }
      exists t. split; [exact Gt|]. split; [reflexivity|]. split; [exact NM|]. split; [exact EQ|]. eapply fm_edge; eauto. }
  destruct B as (w & Gw & -> & NM & EV & FM).
  split; cbn [fst snd].
  - unfold mset. now rewrite upd_length.
  - intros u Gu. rewrite mset_get by auto. rewrite lookup_app. cbn [lookup_flat].
    destruct (vx_eqb v u) eqn:VU.
    + apply vx_eqb_eq in VU. subst u. rewrite NL, Z.eqb_refl. split; [discriminate|intros [_ K]; discriminate].
    + rewrite (R2 u Gu). destruct (lookup_flat (fl u) flats) eqn:LU; [reflexivity|].
      destruct (Z.eqb_spec (fl v) (fl u)) as [K|K]; [|reflexivity].
      apply fl_inj in K; auto. subst u. assert (vx_eqb v v = true) by now apply vx_eqb_eq. congruence.
  - intros l b Hi. apply in_app_or in Hi as [Hi|[[= <- <-]|[]]]; [now apply R3|].
    exists v, w. split; [exact Gw|]. split; [reflexivity|]. split; [reflexivity|]. split; [exact FM|]. split; [exact NM|exact EV].
  - rewrite map_app. cbn [map fst].
    apply (Permutation_NoDup (Permutation_app_comm [fl v] (map fst flats))). constructor; [|exact R4].
    now apply lookup_none.
Qed.

Lemma reduce_one_grow st v : reduce_one nx ny nz data nbs st v = st \/
  length (snd (reduce_one nx ny nz data nbs st v)) = S (length (snd st)).
Proof.
  destruct st as [mask flats]. cbn [reduce_one]. destruct (mget ny nz mask v); [|now left].
  destruct (first_flat nx ny nz data mask v (map fst nbs)); [right|now left]. cbn [snd].
  rewrite app_length. cbn. lia.
Qed.

Lemma reduce_fold_RI l : forall st, (forall v, In v l -> ismax v) -> RI st ->
  RI (fold_left (reduce_one nx ny nz data nbs) l st) /\
  (length (snd st) <= length (snd (fold_left (reduce_one nx ny nz data nbs) l st)))%nat /\
  (length (snd (fold_left (reduce_one nx ny nz data nbs) l st)) = length (snd st) ->
     fold_left (reduce_one nx ny nz data nbs) l st = st /\ forall v, In v l -> reduce_one nx ny nz data nbs st v = st).
Proof.
  induction l as [|v l IH]; intros st HM R; cbn [fold_left].
  - split; [exact R|]. split; [lia|]. intros _. split; [reflexivity|]. intros v [].
  - assert (R' : RI (reduce_one nx ny nz data nbs st v)) by (apply reduce_one_RI; [exact R|apply HM; now left]).
    destruct (IH _ (fun u Hu => HM u (or_intror Hu)) R') as (I1 & I2 & I3).
    pose proof (reduce_one_grow st v) as Gr.
    split; [exact I1|]. split; [destruct Gr as [K|K]; [rewrite K in *; exact I2|lia]|].
    intros EL. destruct Gr as [K|K]; [|lia]. rewrite K in *. destruct (I3 EL) as [J1 J2].
    split; [exact J1|]. intros u [<-|Hu]; auto.
Qed.

Lemma RI_bound st : RI st -> (length (snd st) <= length maxima)%nat.
Proof.
  intros [R1 R2 R3 R4]. rewrite <- (map_length fst (snd st)), <- (map_length fl maxima).
  apply NoDup_incl_length; [exact R4|]. intros l Hl. apply in_map_iff in Hl as ([l' b] & <- & Hi). cbn [fst].
  destruct (R3 _ _ Hi) as (f & w & _ & -> & _ & FM & _). apply in_map. apply in_maxima. now apply falsemax_max.
Qed.

Definition settled (st : list bool * list (Z * Z)) : Prop :=
  forall v, ismax v -> reduce_one nx ny nz data nbs st v = st.

Lemma reduce_loop_done fuel : forall st, RI st ->
  (length maxima < fuel + length (snd st))%nat ->
  exists st', reduce_loop nx ny nz data nbs fuel maxima st (length (snd st)) = Done st' /\ RI st' /\ settled st'.
Proof.
  induction fuel as [|fuel IH]; intros st R Hf.
  - pose proof (RI_bound st R). lia.
  - cbn [reduce_loop]. destruct (reduce_fold_RI maxima st (fun v Hv => proj1 (in_maxima v) Hv) R) as (I1 & I2 & I3).
    destruct (Nat.eqb_spec (length (snd (fold_left (reduce_one nx ny nz data nbs) maxima st))) (length (snd st))) as [E|NE].
    + destruct (I3 E) as [E1 E2]. rewrite E1. exists st. split; [reflexivity|]. split; [exact R|].
      intros v M. apply E2. now apply in_maxima.
    + apply IH; [exact I1|lia].
Qed.

Lemma settled_flats st : RI st -> settled st -> forall v, grid v ->
  (lookup_flat (fl v) (snd st) <> None <-> falsemax v).
Proof.
  intros R SE v G. destruct st as [mask flats]. pose proof R as [R1 R2 R3 R4]. cbn [fst snd] in *. split.
  - intros H. destruct (lookup_flat (fl v) flats) as [b|] eqn:L; [|congruence].
    apply lookup_some in L. destruct (R3 _ _ L) as (f & w & _ & E & _ & FM & _).
    pose proof (falsemax_max f FM) as (Gf & _). apply fl_inj in E; auto. now subst.
  - intros FM. assert (STEP : forall v w, ismax v -> level_neighbours nx ny nz data (map fst nbs) v w ->
        mg mask w = false -> lookup_flat (fl v) flats <> None).
    { clear v G FM. intros v w M (s & Hs & Pt & EQ) MW L. pose proof M as (G & _).
      assert (MV : mg mask v = true) by (apply R2; auto).
      specialize (SE v M). cbn [reduce_one] in SE. rewrite MV in SE.
      destruct (first_flat nx ny nz data mask v (map fst nbs)) as [t|] eqn:F.
      - injection SE as S1 S2. apply (f_equal (@length _)) in S2. rewrite app_length in S2. cbn in S2. lia.
      - destruct (first_flat_none _ _ _ F s Hs) as [K|K].
        + assert (w = step_to nx ny nz v s).
          { eapply ptarget_fun; [exact Pt|]. apply (step_to_periodic nx ny nz Hx Hy Hz); auto using unit_ts. }
          subst w. change (@rd Q) with (@value_at Q) in K. lra.
        + assert (w = step_to nx ny nz v s).
          { eapply ptarget_fun; [exact Pt|]. apply (step_to_periodic nx ny nz Hx Hy Hz); auto using unit_ts. }
          subst w. congruence. }
    induction FM as [v w M LV NM|v w M LV FM IH].
    + apply (STEP v w M LV). destruct LV as (s & Hs & Pt & _). pose proof (ptarget_in_grid nx ny nz Hx Hy Hz _ _ _ Pt) as Gw.
      destruct (mg mask w) eqn:E; [|reflexivity]. apply R2 in E; auto. tauto.
    + apply (STEP v w M LV). pose proof (falsemax_max w FM) as (Gw & _). specialize (IH Gw).
      destruct (mg mask w) eqn:E; [|reflexivity]. apply R2 in E; auto. tauto.
Qed.

(** ** the climb *)
Definition hill_measure (v : Z * Z * Z) : nat :=
  2 * above nx ny nz data v + (if vx_eqb v (best v) then 1 else 0).

Lemma hill_spec fuel : forall mask flats v, RI (mask, flats) -> grid v -> value_at vac v = false ->
  (ismax v -> mg mask v = false) ->
  (hill_measure v < fuel)%nat ->
  exists m, hill nx ny nz data nbs fuel mask flats v = Done m /\ grid m /\ mg mask m = true /\
    (value_at data v < value_at data m)%Q.
Proof.
  induction fuel as [|fuel IH]; intros mask flats v R G NV NM Hf; [lia|]. cbn [hill].
  pose proof R as [R1 R2 R3 R4]. cbn [fst snd] in *.
  destruct (best_steepest nx ny nz Hx Hy Hz data nbs Hnbs v G) as [[HI E]|(_ & LT & NH)].
  - rewrite E. assert (M : ismax v) by (split; [exact G|split; [exact NV|exact HI]]). rewrite (NM M).
    replace (vx_eqb v v) with true by (symmetry; now apply vx_eqb_eq).
    assert (L : lookup_flat (fl v) flats <> None).
    { intros L. assert (mg mask v = true) by (apply R2; auto). rewrite NM in H; auto. discriminate. }
    destruct (lookup_flat (fl v) flats) as [b|] eqn:LB; [|congruence].
    apply lookup_some in LB. destruct (R3 _ _ LB) as (f & w & Gw & Ef & -> & FM & NMw & EV).
    pose proof (falsemax_max f FM) as (Gf & _). apply fl_inj in Ef; auto. subst f.
    rewrite fl_of by exact Gw.
    assert (NVw : value_at vac w = false).
    { destruct (value_at vac w) eqn:K; [|reflexivity]. pose proof (Hvac v w G Gw K NV). lra. }
    assert (AW : above nx ny nz data w = above nx ny nz data v).
    { unfold above. f_equal. apply filter_ext. intros u. unfold Qltb. f_equal.
      apply Bool.eq_iff_eq_true. rewrite !Qle_bool_iff. rewrite EV. reflexivity. }
    assert (NB : best w <> w).
    { intros K. apply (best_neighbor_fixed_iff nx ny nz Hx Hy Hz data w nbs Gw Hnbs) in K.
      apply NMw. split; [exact Gw|split; [exact NVw|exact K]]. }
    destruct (IH mask flats w R Gw NVw) as (m & Em & Gm & Mm & Vm).
    + intros K. contradiction.
    + unfold hill_measure in *. rewrite E in Hf. replace (vx_eqb v v) with true in Hf by (symmetry; now apply vx_eqb_eq).
      destruct (vx_eqb w (best w)) eqn:K; [apply vx_eqb_eq in K; congruence|]. lia.
    + exists m. split; [exact Em|]. split; [exact Gm|]. split; [exact Mm|]. lra.
  - set (n := best v) in *. assert (Gn : grid n) by now apply best_in_grid.
    destruct (mget ny nz mask n) eqn:MN.
    + exists n. auto.
    + destruct (vx_eqb v n) eqn:K; [apply vx_eqb_eq in K; rewrite <- K in LT; lra|].
      assert (NVn : value_at vac n = false).
      { destruct (value_at vac n) eqn:K2; [|reflexivity]. pose proof (Hvac v n G Gn K2 NV). lra. }
      destruct (IH mask flats n R Gn NVn) as (m & Em & Gm & Mm & Vm).
      * intros _. exact MN.
      * pose proof (above_lt nx ny nz data v n Gn LT). unfold hill_measure in *.
        destruct (vx_eqb n (best n)); destruct (vx_eqb v (best v)); lia.
      * exists m. split; [exact Em|]. split; [exact Gm|]. split; [exact Mm|]. lra.
Qed.

Lemma above_le v : (above nx ny nz data v <= N)%nat.
Proof.
  unfold above. assert (LV : length (voxels nx ny nz) = N).
  { unfold voxels.
    assert (FM : forall (A : Type) (g : Z -> list A) c l, (forall i, length (g i) = c) -> length (flat_map g l) = (length l * c)%nat).
    { intros A g c l H. induction l as [|a l IH]; cbn [flat_map length]; [reflexivity|]. rewrite app_length, H, IH. lia. }
    rewrite (FM _ _ (Z.to_nat ny * Z.to_nat nz)%nat).
    - rewrite zrange_length. rewrite !Z2Nat.inj_mul by nia. lia.
    - intros i. rewrite (FM _ _ (Z.to_nat nz)).
      + now rewrite zrange_length.
      + intros j. now rewrite map_length, zrange_length. }
  rewrite <- LV. clear. induction (voxels nx ny nz) as [|a l IH]; cbn [filter]; [lia|].
  destruct (Qltb _ _); cbn [length]; lia.
Qed.

(** ** the initial labels *)
Lemma fold_upd_nth (g : Z * Z * Z -> Z) l : forall p i, length p = N -> (forall v, In v l -> grid v) ->
  (i < N)%nat ->
  let q := fold_left (fun L v => upd L (Z.to_nat (fl v)) (g v)) l p in
  length q = N /\
  ((forall v, In v l -> num v <> i) -> nth_error q i = nth_error p i) /\
  (forall v, In v l -> num v = i -> nth_error q i = Some (g v)).
Proof.
  induction l as [|a l IH]; intros p i L HG Hi; cbn [fold_left].
  - split; [exact L|]. split; [reflexivity|]. intros v [].
  - assert (Ga : grid a) by (apply HG; now left).
    assert (La : (num a < N)%nat) by now apply voxel_number_lt.
    destruct (IH (upd p (Z.to_nat (fl a)) (g a)) i) as (I1 & I2 & I3); [now rewrite upd_length|intros v Hv; apply HG; now right|exact Hi|].
    unfold vx_flat in *. rewrite flat_voxel_number in *. split; [exact I1|]. split.
    + intros H. rewrite I2 by (intros v Hv; apply H; now right).
      rewrite nth_error_upd. destruct (Nat.eqb_spec (num a) i) as [E|E]; [|reflexivity].
      exfalso. apply (H a); [now left|exact E].
    + intros v Hv E. destruct (in_dec (fun x y : nat => Nat.eq_dec x y) i (map num l)) as [H|H].
      * apply in_map_iff in H as (u & Eu & Hu).
        assert (u = v). { apply num_inj; [apply HG; now right|apply HG; exact Hv|congruence]. }
        subst u. now apply I3.
      * rewrite I2.
        -- destruct Hv as [->|Hv]; [|exfalso; apply H; apply in_map_iff; exists v; auto].
           rewrite nth_error_upd, E, Nat.eqb_refl. replace (Nat.ltb i (length p)) with true by lia. reflexivity.
        -- intros u Hu Eu. apply H. apply in_map_iff. exists u. auto.
Qed.

Lemma nth_repeat_Z (z : Z) n i : (i < n)%nat -> nth_error (repeat z n) i = Some z.
Proof. revert i. induction n as [|n IH]; intros [|i] H; simpl; try lia; auto. apply IH. lia. Qed.

Notation L0 := (init_labels nx ny nz maxima).

Lemma init_spec : length L0 = N /\
  (forall v, ismax v -> nth_error L0 (num v) = Some (Z.of_nat (num v))) /\
  (forall i, (i < N)%nat -> (forall v, ismax v -> num v <> i) -> nth_error L0 i = Some (-1)).
Proof.
  assert (HG : forall v, In v maxima -> grid v) by (intros v Hv; now apply Hmaxima in Hv).
  pose proof (Z.mul_pos_pos nx ny Hx Hy). pose proof (Z.mul_pos_pos (nx * ny) nz ltac:(lia) Hz).
  assert (FS : forall i, (i < N)%nat -> _) by (intros i Hi; exact (fold_upd_nth (fun v => fl v) maxima (repeat (-1) N) i (repeat_length _ _) HG Hi)).
  cbv beta zeta in FS. unfold init_labels. split; [apply (FS 0%nat); lia|]. split.
  - intros v M. pose proof M as (G & _). pose proof (voxel_number_lt nx ny nz Hx Hy Hz v G) as Lt.
    destruct (FS (num v) Lt) as (_ & _ & F). rewrite <- (fl_num v G). apply F; [now apply in_maxima|reflexivity].
  - intros i Hi H1. destruct (FS i Hi) as (_ & F & _). rewrite F; [now apply nth_repeat_Z|].
    intros v Hv. apply H1. now apply in_maxima.
Qed.

Lemma num_surj i : (i < N)%nat -> exists v, grid v /\ num v = i.
Proof. intros H. exists (unflat ny nz (Z.of_nat i)). now apply unflat_in_grid. Qed.

Lemma active0 i : active L0 i <-> exists v, ismax v /\ num v = i.
Proof.
  destruct init_spec as (I1 & I2 & I3). split.
  - intros A. pose proof (lt_active _ _ A) as Lt. rewrite I1 in Lt. destruct (num_surj i Lt) as (v & G & E).
    destruct (ismax_dec v G) as [M|NM]; [eauto|]. exfalso. destruct A as (z & Hz' & Nz).
    rewrite I3 in Hz'; [congruence|exact Lt|]. intros u Mu Eu. apply NM.
    assert (u = v) by (apply num_inj; [apply Mu|exact G|congruence]). now subst.
  - intros (v & M & <-). exists (Z.of_nat (num v)). split; [now apply I2|lia].
Qed.

Lemma uf_on0 : uf_on [] L0.
Proof.
  destruct init_spec as (I1 & I2 & I3).
  assert (PT : forall i z, nth_error L0 i = Some z -> z <> -1 -> z = Z.of_nat i).
  { intros i z Hz' Nz. assert (A : active L0 i) by (exists z; auto). apply active0 in A as (v & M & <-). rewrite I2 in Hz' by exact M. congruence. }
  assert (RR : forall i r, reaches L0 i r -> i = r).
  { induction 1 as [|i j r E R IH]; [reflexivity|]. apply PT in E; lia. }
  split; [|split].
  - split.
    + intros i z Hz' Nz. pose proof (PT i z Hz' Nz). subst z. rewrite Nat2Z.id.
      assert (i < length L0)%nat by (apply nth_error_Some; congruence). split; [lia|congruence].
    + intros i z Hz' Nz. pose proof (PT i z Hz' Nz). subst z. exists i. now constructor.
  - intros x y [].
  - intros i j A B. split.
    + intros (r & R1 & R2). apply RR in R1, R2. subst. constructor.
    + intros C. apply connected_nil in C. subst. apply active0 in A as (v & M & <-).
      exists (num v). split; constructor; now apply I2.
Qed.

(** ** phase 1 unions *)
Notation flat_pair := (LabelsSpec.flat_pair nx ny nz data (map fst nbs) vac).

Lemma merge_flats_spec fuel mask flats : RI (mask, flats) -> settled (mask, flats) ->
  (2 * N + 2 <= fuel)%nat -> forall us E p,
  incl us (map snd flats) -> uf_on E p -> length p = N -> (forall i, active p i <-> active L0 i) ->
  exists q E', merge_flats nx ny nz data nbs fuel mask flats us p = Done q /\ length q = N /\
    (forall i, active q i <-> active L0 i) /\ uf_on (E ++ E') q /\
    (forall e, In e E' -> flat_pair e) /\
    (forall l b, In (l, b) flats -> In b us -> exists m, In (Z.to_nat l, num m) E' /\ flat_pair (Z.to_nat l, num m)).
Proof.
  intros R SE Hf. pose proof R as [R1 R2 R3 R4]. cbn [fst snd] in *.
  induction us as [|u us IH]; intros E p IU I L AA; cbn [merge_flats].
  - exists p, []. rewrite app_nil_r. split; [reflexivity|]. split; [exact L|]. split; [exact AA|]. split; [exact I|].
    split; [intros e []|intros l b _ []].
  - assert (HU : In u (map snd flats)) by (apply IU; now left). apply in_map_iff in HU as ([l0 u'] & E0 & Hu). cbn in E0. subst u'.
    destruct (R3 _ _ Hu) as (f0 & w & Gw & _ & -> & FM0 & NMw & EV0).
    pose proof (falsemax_max f0 FM0) as (Gf0 & NV0 & _).
    assert (NVw : value_at vac w = false).
    { destruct (value_at vac w) eqn:K; [|reflexivity]. pose proof (Hvac f0 w Gf0 Gw K NV0). lra. }
    rewrite fl_of by exact Gw.
    destruct (hill_spec fuel mask flats w R Gw NVw) as (m & Em & Gm & Mm & Vm).
    { intros K. contradiction. }
    { unfold hill_measure. pose proof (above_le w). destruct (vx_eqb w (best w)); lia. }
    rewrite Em. cbn [obind].
    assert (MM : ismax m /\ lookup_flat (fl m) flats = None) by (apply R2; auto). destruct MM as [MM ML].
    assert (NF : ~ falsemax m).
    { intros K. apply (settled_flats (mask, flats) R SE m Gm) in K. contradiction. }
    set (req := map (fun lb : Z * Z => (fst lb, fl m)) (filter (fun lb : Z * Z => snd lb =? fl w) flats)).
    assert (HR : forall a b, In (a, b) req -> exists f, a = fl f /\ b = fl m /\ falsemax f /\ In (a, fl w) flats /\ (value_at data f < value_at data m)%Q).
    { intros a b Hab. apply in_map_iff in Hab as ([a' b'] & [= <- <-] & Hi). apply filter_In in Hi as [Hi K].
      cbn [fst snd] in *. apply Z.eqb_eq in K. subst b'. destruct (R3 _ _ Hi) as (f & w' & Gw' & -> & Ew & FM & _ & EV).
      apply fl_inj in Ew; auto. subst w'. exists f. split; [reflexivity|]. split; [reflexivity|]. split; [exact FM|].
      split; [exact Hi|]. lra. }
    destruct (run_unions_correct fuel req E p I) as (q & Eq & Lq & Iq & Aq).
    { rewrite L. lia. }
    { intros a b Hab. destruct (HR a b Hab) as (f & -> & -> & FM & _). pose proof (falsemax_max f FM) as Mf.
      pose proof Mf as (Gf & _). exists (num f), (num m). split; [now apply fl_num|]. split; [now apply fl_num|].
      rewrite !AA, !active0. split; eauto. }
    rewrite Eq. cbn [obind].
    destruct (IH (E ++ nat_pairs req) q) as (q' & E' & F1 & F2 & F3 & F4 & F5 & F6).
    { intros b Hb. apply IU. now right. }
    { exact Iq. }
    { congruence. }
    { intros i. rewrite Aq. apply AA. }
    assert (PP : forall a b, In (a, b) req -> flat_pair (Z.to_nat a, num m) /\ Z.to_nat b = num m).
    { intros a b Hab. destruct (HR a b Hab) as (f & -> & -> & FM & _ & V). pose proof (falsemax_max f FM) as (Gf & _).
      rewrite (fl_num f Gf), (fl_num m Gm), !Nat2Z.id. split; [|reflexivity]. exists f, m. split; [reflexivity|]. split; [exact FM|]. split; [split; assumption|exact V]. }
    exists q', (nat_pairs req ++ E'). split; [exact F1|]. split; [exact F2|]. split; [exact F3|].
    split; [now rewrite app_assoc|]. split.
    + intros e He. apply in_app_or in He as [He|He]; [|now apply F5].
      apply in_map_iff in He as ([a b] & <- & Hab). cbn [fst snd]. destruct (PP a b Hab) as [K ->]. exact K.
    + intros l b Hlb [<-|Hb].
      * assert (Hab : In (l, fl m) req).
        { apply in_map_iff. exists (l, fl w). split; [reflexivity|]. apply filter_In. split; [exact Hlb|]. cbn. apply Z.eqb_refl. }
        destruct (PP _ _ Hab) as [K EQ]. exists m. split; [|exact K]. apply in_or_app. left.
        apply in_map_iff. exists (l, fl m). split; [|exact Hab]. cbn [fst snd]. now rewrite EQ.
      * destruct (F6 l b Hlb Hb) as (m' & K1 & K2). exists m'. split; [|exact K2]. apply in_or_app. now right.
Qed.

(** ** the mask is restored *)
Lemma restore_spec mask flats : RI (mask, flats) ->
  forall v, grid v -> (mg (restore ny nz mask flats) v = true <-> ismax v).
Proof.
  intros R v G. pose proof R as [R1 R2 R3 R4]. cbn [fst snd] in *.
  assert (GEN : forall fs m, length m = N -> (forall l b, In (l, b) fs -> exists f, l = fl f /\ grid f) ->
     (mg (restore ny nz m fs) v = true <-> mg m v = true \/ In (fl v) (map fst fs))).
  { unfold restore. induction fs as [|[l b] fs IH]; intros m Lm HB; cbn [fold_left map fst].
    - cbn. intuition.
    - destruct (HB l b (or_introl eq_refl)) as (f & -> & Gf). rewrite fl_of by exact Gf.
      rewrite IH; [|unfold mset; now rewrite upd_length|intros l' b' H; apply (HB l' b'); now right].
      rewrite mset_get by auto. destruct (vx_eqb f v) eqn:K.
      + apply vx_eqb_eq in K. subst. cbn [In]. intuition.
      + cbn [In]. split; [intuition|]. intros [H|[H|H]]; auto. apply fl_inj in H; auto. subst.
        assert (vx_eqb v v = true) by now apply vx_eqb_eq. congruence. }
  rewrite GEN; [|exact R1|].
  - rewrite (R2 v G). destruct (lookup_flat (fl v) flats) as [b|] eqn:LB.
    + apply lookup_some in LB. destruct (R3 _ _ LB) as (f & w & _ & Ef & _ & FM & _).
      pose proof (falsemax_max f FM) as Mf. pose proof Mf as (Gf & _). apply fl_inj in Ef; auto. subst f.
      split; [intros _; exact Mf|]. intros _. right. apply in_map_iff. exists (fl v, b). auto.
    + split; [|auto]. intros [[M _]|H]; [exact M|]. apply lookup_none in LB. contradiction.
  - intros l b Hi. destruct (R3 _ _ Hi) as (f & w & _ & -> & _ & FM & _). exists f. split; [reflexivity|].
    apply (falsemax_max f FM).
Qed.

(** ** phase 2 *)
Lemma adjacent_requests_spec mask : (forall v, grid v -> (mg mask v = true <-> ismax v)) ->
  forall a b, In (a, b) (adjacent_requests nx ny nz nbs mask maxima) <->
    exists v w, a = fl v /\ b = fl w /\ ismax v /\ ismax w /\ adjacent nx ny nz (map fst nbs) v w.
Proof.
  intros HM a b. unfold adjacent_requests. rewrite in_flat_map. split.
  - intros (v & Hv & Hi). apply in_maxima in Hv. apply in_map_iff in Hi as (t & [= <- <-] & Ht).
    apply filter_In in Ht as [Ht Mt]. apply in_map_iff in Ht as (s & <- & Hs). pose proof Hv as (G & _).
    exists v, (step_to nx ny nz v s). split; [reflexivity|]. split; [reflexivity|]. split; [exact Hv|].
    assert (Gt : grid (step_to nx ny nz v s)) by (apply (step_to_in_grid nx ny nz); auto using unit_ts).
    split; [now apply HM|]. exists s. split; [exact Hs|]. apply (step_to_periodic nx ny nz Hx Hy Hz); auto using unit_ts.
  - intros (v & w & -> & -> & Mv & Mw & s & Hs & Pt). exists v. split; [now apply in_maxima|].
    pose proof Mv as (G & _).
    assert (w = step_to nx ny nz v s).
    { eapply ptarget_fun; [exact Pt|]. apply (step_to_periodic nx ny nz Hx Hy Hz); auto using unit_ts. }
    apply in_map_iff. exists w. split; [reflexivity|]. apply filter_In. split.
    + apply in_map_iff. exists s. auto.
    + apply HM; [apply Mw|exact Mw].
Qed.

(** ** phase 3 *)
Variable same : nat -> nat -> outcome bool.
Hypothesis Hsame : forall a b, (a < length maxima)%nat -> (b < length maxima)%nat -> exists r, same a b = Done r.
Variable sorted : list nat.
Hypothesis Hsorted : Permutation sorted (seq 0 (length maxima)).
Hypothesis Hdesc : StronglySorted (fun a b => (value_at data (nth b maxima (0, 0, 0)%Z) <= value_at data (nth a maxima (0, 0, 0)%Z))%Q) sorted.

Notation mx i := (nth i maxima (0, 0, 0)).

Lemma sorted_lt i : In i sorted -> (i < length maxima)%nat.
Proof. intros H. apply (Permutation_in _ Hsorted) in H. apply in_seq in H. lia. Qed.

Lemma mx_max i : (i < length maxima)%nat -> ismax (mx i).
Proof. intros H. apply in_maxima. now apply nth_In. Qed.

Lemma interp_partner_spec a va l : (a < length maxima)%nat -> incl l sorted ->
  StronglySorted (fun a b => (value_at data (mx b) <= value_at data (mx a))%Q) l ->
  exists o, interp_partner data same maxima a va l = Done o /\
   (forall b, o = Some b -> In b l /\ b <> a /\ same a b = Done true /\ (va <= value_at data (mx b))%Q) /\
   (o = None -> forall b, In b l -> b <> a -> (va <= value_at data (mx b))%Q -> same a b = Done false).
Proof.
  intros Ha. induction l as [|b l IH]; intros HI SS; cbn [interp_partner].
  - exists None. split; [reflexivity|]. split; [discriminate|]. intros _ b [].
  - assert (HI' : incl l sorted) by (intros z Hz'; apply HI; now right).
    inversion SS as [|? ? SS' FF]; subst. rewrite Forall_forall in FF.
    destruct (IH HI' SS') as (o & Eo & Ho & Hn).
    assert (Hb : (b < length maxima)%nat) by (apply sorted_lt, HI; now left).
    destruct (Nat.eqb_spec b a) as [->|NE].
    + exists o. split; [exact Eo|]. split.
      * intros c Hc. destruct (Ho c Hc) as (K1 & K). split; [now right|exact K].
      * intros E c [<-|Hc] NC; [congruence|]. now apply Hn.
    + destruct (Qltb_spec (rd data (mx b)) va) as [LT|GE].
      * exists None. split; [reflexivity|]. split; [discriminate|].
        change (@rd Q) with (@value_at Q) in LT. intros _ c [<-|Hc] NC VC; [lra|].
        specialize (FF c Hc). cbv beta in FF. lra.
      * destruct (Hsame a b Ha Hb) as (r & Er). rewrite Er. cbn [obind]. destruct r.
        -- exists (Some b). split; [reflexivity|]. split; [|discriminate].
           intros c [= <-]. split; [now left|]. split; [exact NE|]. split; [exact Er|]. exact GE.
        -- exists o. split; [exact Eo|]. split.
           ++ intros c Hc. destruct (Ho c Hc) as (K1 & K). split; [now right|exact K].
           ++ intros E c [<-|Hc] NC VC; [exact Er|]. now apply Hn.
Qed.

Notation interp_pair := (LabelsSpec.interp_pair nx ny nz data (map fst nbs) vac maxima same).

Lemma interp_requests_spec mask flats l : RI (mask, flats) -> settled (mask, flats) -> incl l sorted ->
  exists req, interp_requests ny nz data same flats maxima sorted l = Done req /\
   (forall a b, In (a, b) req -> exists v w, a = fl v /\ b = fl w /\ ismax v /\ ismax w /\ interp_pair (num v, num w)) /\
   (forall a b, In a l -> interp_pair (num (mx a), num (mx b)) ->
      exists b', In (fl (mx a), fl (mx b')) req /\ interp_pair (num (mx a), num (mx b'))).
Proof.
  intros R SE. induction l as [|a l IH]; intros HI; cbn [interp_requests].
  - exists []. split; [reflexivity|]. split; [intros a b []|intros a b []].
  - assert (HI' : incl l sorted) by (intros z Hz'; apply HI; now right).
    destruct (IH HI') as (req & Er & Hr & Hc).
    assert (Ha : (a < length maxima)%nat) by (apply sorted_lt, HI; now left).
    pose proof (mx_max a Ha) as Ma. pose proof Ma as (Ga & _).
    assert (IDX : forall c, interp_pair (num (mx a), num (mx c)) -> exists d, (d < length maxima)%nat /\ d <> a /\
       same a d = Done true /\ ~ falsemax (mx a) /\ (value_at data (mx a) <= value_at data (mx d))%Q).
    { intros c (a' & d & H). cbv zeta in H. destruct H as ([= N1 N2] & La & Ld & NE & SM & NF & VV).
      apply num_inj in N1; [|exact Ga|apply (mx_max a' La)].
      assert (a' = a) by (apply (proj1 (NoDup_nth maxima (0, 0, 0)) Hnodup); auto). subst a'.
      exists d. auto. }
    destruct (lookup_flat (fl (mx a)) flats) as [b|] eqn:LB.
    + exists req. split; [exact Er|]. split; [exact Hr|]. intros c b' [<-|Hin] IP; [|now apply (Hc c b')].
      exfalso. destruct (IDX b' IP) as (d & _ & _ & _ & NF & _). apply NF.
      apply (settled_flats (mask, flats) R SE _ Ga). cbn [snd]. congruence.
    + destruct (interp_partner_spec a (rd data (mx a)) sorted Ha (incl_refl _) Hdesc) as (o & Eo & Ho & Hn).
      rewrite Eo. cbn [obind]. rewrite Er. cbn [obind]. destruct o as [b|].
      * destruct (Ho b eq_refl) as (Hb & NE & SM & VV). apply sorted_lt in Hb. pose proof (mx_max b Hb) as Mb.
        assert (IP : interp_pair (num (mx a), num (mx b))).
        { exists a, b. cbv zeta. split; [reflexivity|]. split; [exact Ha|]. split; [exact Hb|]. split; [congruence|]. split; [exact SM|].
          split; [|exact VV].
          intros K. apply (settled_flats (mask, flats) R SE _ Ga) in K. contradiction. }
        eexists. split; [reflexivity|]. split.
        -- intros x y [[= <- <-]|H]; [|now apply Hr].
           exists (mx a), (mx b). split; [reflexivity|]. split; [reflexivity|]. split; [exact Ma|]. split; [exact Mb|exact IP].
        -- intros c b' [<-|Hin] IP'.
           ++ exists b. split; [now left|exact IP].
           ++ destruct (Hc c b' Hin IP') as (b'' & K1 & K2). exists b''. split; [now right|exact K2].
      * exists req. split; [reflexivity|]. split; [exact Hr|]. intros c b' [<-|Hin] IP; [|now apply (Hc c b')].
        exfalso. destruct (IDX b' IP) as (d & Ld & NE & SM & _ & VV).
        rewrite (Hn eq_refl d) in SM; [discriminate| |exact NE|exact VV].
        apply (Permutation_in _ (Permutation_sym Hsorted)). apply in_seq. lia.
Qed.

(** ** regrouping *)
Local Opaque low_start.
Hypothesis Hfloor : forall v, grid v -> (low_start < value_at data v)%Q.

Lemma highest_fold l : forall st, (forall v, In v l -> grid v) ->
  let r := fold_left (highest_step data) l st in
  (r = st \/ (In (snd r) l /\ fst r = value_at data (snd r))) /\
  (fst st <= fst r)%Q /\ (forall v, In v l -> (value_at data v <= fst r)%Q).
Proof.
  induction l as [|a l IH]; intros st HG; cbn [fold_left].
  - split; [now left|]. split; [apply Qle_refl|intros v []].
  - destruct (IH (highest_step data st a) (fun v Hv => HG v (or_intror Hv))) as (I1 & I2 & I3).
    cbv zeta in *. unfold highest_step in I1 at 3. unfold highest_step in I2 at 1.
    destruct (Qltb_spec (fst st) (rd data a)) as [LT|GE]; cbn [fst] in *.
    + split; [|split].
      * right. destruct I1 as [E|[E1 E2]].
        -- rewrite E. cbn [fst snd]. split; [now left|apply rd_value_at].
        -- split; [now right|exact E2].
      * lra.
      * intros v [<-|Hv]; [change (@rd Q) with (@value_at Q) in I2; exact I2|auto].
    + split; [|split].
      * destruct I1 as [E|[E1 E2]]; [now left|right; split; [now right|exact E2]].
      * exact I2.
      * intros v [<-|Hv]; [change (@rd Q) with (@value_at Q) in GE; lra|auto].
Qed.

Lemma represent_spec flats members : members <> [] -> (forall v, In v members -> grid v) ->
  let b := fst (represent nx ny nz data flats members) in
  In b members /\ forall v, In v members -> (value_at data v <= value_at data b)%Q.
Proof.
  intros NE HG. unfold represent. pose proof (highest_fold members (low_start, (-1, -1, -1)) HG) as H.
  cbv zeta in H. fold (highest data members) in H.
  destruct (highest data members) as [hv h]. cbn [fst snd] in H. destruct H as (H1 & H2 & H3).
  destruct (merge_frac_coords_weighted _ _) as [[m0 m1] m2].
  assert (HH : In h members /\ hv = value_at data h).
  { destruct H1 as [K|K]; [|exact K]. assert (E : hv = low_start) by exact (f_equal fst K). clear K. subst hv. destruct members as [|a t]; [congruence|]. exfalso.
    assert (Ga : grid a) by (apply HG; now left). pose proof (Hfloor a Ga). pose proof (H3 a (or_introl eq_refl)). lra. }
  destruct HH as [HH ->].
  set (c := (_ mod nx, _ mod ny, _ mod nz)).
  destruct (negb (existsb (fun v => vx_flat ny nz v =? vx_flat ny nz c) members) || Qltb (rd data c) (value_at data h)) eqn:K; cbn [fst].
  - split; [exact HH|exact H3].
  - apply orb_false_iff in K as [K1 K2]. apply negb_false_iff in K1. apply existsb_exists in K1 as (u & Hu & E).
    apply Z.eqb_eq in E. apply Qltb_ge in K2. change (@rd Q) with (@value_at Q) in K2.
    assert (Gc : grid c) by (unfold c, in_grid; repeat split; apply Z.mod_pos_bound; lia).
    apply fl_inj in E; [|apply HG; exact Hu|exact Gc]. subst u. split; [exact Hu|].
    intros v Hv. pose proof (H3 v Hv). lra.
Qed.

Lemma close_round n q : 0 < n -> (0 <= q < 1)%Q -> close1 n (qround (q * inject_Z n) mod n) q.
Proof. intros Hn Hq. split; [exact Hq|]. exists (qround (q * inject_Z n)). split; [reflexivity|apply qround_spec]. Qed.

Lemma close_frac n i : 0 <= i < n -> close1 n i (inject_Z i / inject_Z n).
Proof.
  intros H. split; [now apply frac_range|]. exists i. split; [now apply Z.mod_small|]. rewrite frac_mul by lia. lra.
Qed.

Lemma merge_range cs vs : let '(a, b, c) := merge_frac_coords_weighted cs vs in
  (0 <= a < 1)%Q /\ (0 <= b < 1)%Q /\ (0 <= c < 1)%Q.
Proof.
  unfold merge_frac_coords_weighted. destruct cs as [|[[r0 r1] r2] t]; [repeat split; lra|].
  destruct (fold_left _ _ _) as [[t0 t1] t2]. repeat split; apply qmod1_range.
Qed.

Lemma represent_position flats members : members <> [] -> (forall v, In v members -> grid v) ->
  position_of nx ny nz (fst (represent nx ny nz data flats members)) (snd (represent nx ny nz data flats members)).
Proof.
  intros NE HG. unfold represent. pose proof (highest_fold members (low_start, (-1, -1, -1)) HG) as H.
  cbv zeta in H. fold (highest data members) in H.
  destruct (highest data members) as [hv h]. cbn [fst snd] in H. destruct H as (H1 & H2 & H3).
  pose proof (merge_range (map (frac_of nx ny nz) (filter (fun v => match lookup_flat (vx_flat ny nz v) flats with Some _ => false | None => true end) members)) (map (fun v => rd data v) members)) as MR.
  destruct (merge_frac_coords_weighted _ _) as [[m0 m1] m2].
  assert (Gh : grid h).
  { destruct H1 as [K|[K _]]; [|now apply HG]. destruct members as [|a t]; [congruence|]. exfalso.
    assert (E : hv = low_start) by exact (f_equal fst K). subst hv.
    assert (Ga : grid a) by (apply HG; now left). pose proof (Hfloor a Ga). pose proof (H3 a (or_introl eq_refl)). lra. }
  set (c := (_ mod nx, _ mod ny, _ mod nz)).
  destruct (negb (existsb (fun v => vx_flat ny nz v =? vx_flat ny nz c) members) || Qltb (rd data c) hv); cbn [fst snd].
  - destruct h as [[i j] k]. destruct Gh as (G1 & G2 & G3). cbn [frac_of position_of]. repeat split; try (now apply frac_range); now apply close_frac.
  - unfold c. cbn [position_of]. destruct MR as (R1 & R2 & R3). split; [|split]; apply close_round; auto.
Qed.

Definition members (roots : list Z) (u : Z) : list (Z * Z * Z) :=
  map fst (filter (fun mr : (Z * Z * Z) * Z => snd mr =? u) (combine maxima roots)).

Lemma members_in (rt : Z * Z * Z -> Z) u v : In v (members (map rt maxima) u) <-> In v maxima /\ rt v = u.
Proof.
  unfold members. rewrite in_map_iff.
  assert (CM : combine maxima (map rt maxima) = map (fun v => (v, rt v)) maxima).
  { clear. induction maxima as [|a l IH]; cbn; [reflexivity|]. now rewrite IH. }
  rewrite CM. split.
  - intros ([v' r] & <- & Hi). apply filter_In in Hi as [Hi E]. cbn [fst snd] in *. apply in_map_iff in Hi as (w & [= -> <-] & Hw).
    split; [exact Hw|]. now apply Z.eqb_eq.
  - intros [Hv <-]. exists (v, rt v). split; [reflexivity|]. apply filter_In. split; [|cbn; apply Z.eqb_refl].
    apply in_map_iff. exists v. auto.
Qed.

Lemma regroup_spec flats (rt : Z * Z * Z -> Z) us : forall p, length p = N -> NoDup us ->
  let '(pf, bs) := regroup nx ny nz data flats maxima (map rt maxima) us p in
  length pf = N /\
  bs = map (fun u => represent nx ny nz data flats (members (map rt maxima) u)) us /\
  forall i, (i < N)%nat ->
    (forall v, In v maxima -> num v = i -> In (rt v) us ->
       nth_error pf i = Some (fl (fst (represent nx ny nz data flats (members (map rt maxima) (rt v)))))) /\
    ((forall v, In v maxima -> num v = i -> ~ In (rt v) us) -> nth_error pf i = nth_error p i).
Proof.
  induction us as [|u us IH]; intros p Lp ND; cbn [regroup].
  - split; [exact Lp|]. split; [reflexivity|]. intros i Hi. split; [intros v _ _ []|reflexivity].
  - fold (members (map rt maxima) u). set (ms := members (map rt maxima) u). set (b := represent nx ny nz data flats ms).
    assert (HG : forall v, In v ms -> grid v).
    { intros v Hv. apply members_in in Hv as [Hv _]. now apply Hmaxima in Hv. }
    pose proof (Z.mul_pos_pos nx ny Hx Hy). pose proof (Z.mul_pos_pos (nx * ny) nz ltac:(lia) Hz).
    pose proof (fun i Hi => fold_upd_nth (fun _ => fl (fst b)) ms p i Lp HG Hi) as FU. cbv zeta in FU.
    set (p' := fold_left (fun L v => upd L (Z.to_nat (vx_flat ny nz v)) (vx_flat ny nz (fst b))) ms p) in *.
    assert (Lp' : length p' = N) by (apply (FU 0%nat); lia).
    inversion ND as [|? ? NU ND']; subst.
    specialize (IH p' Lp' ND'). destruct (regroup nx ny nz data flats maxima (map rt maxima) us p') as [pf bs].
    destruct IH as (I1 & I2 & I3). split; [exact I1|]. split; [cbn [map]; now rewrite I2|].
    intros i Hi. destruct (I3 i Hi) as [J1 J2]. destruct (FU i Hi) as (_ & FN & FS). split.
    + intros v Hv Ev [Eu|Hu]; [|now apply J1].
      rewrite J2.
      * rewrite <- Eu. apply (FS v); [|exact Ev]. apply members_in. auto.
      * intros w Hw Ew. assert (w = v).
        { apply num_inj; [now apply Hmaxima in Hw|now apply Hmaxima in Hv|congruence]. }
        subst w. now rewrite <- Eu.
    + intros HN. rewrite J2 by (intros v Hv Ev K; apply (HN v Hv Ev); now right).
      apply FN. intros v Hv Ev. apply members_in in Hv as [Hv Er]. apply (HN v Hv Ev). left. congruence.
Qed.

Lemma all_done_map {A B} (g : A -> outcome B) (h : A -> B) l : (forall a, In a l -> g a = Done (h a)) ->
  all_done (map g l) = Done (map h l).
Proof.
  induction l as [|a l IH]; intros H; cbn [map all_done]; [reflexivity|].
  rewrite (H a (or_introl eq_refl)). cbn [obind]. rewrite IH by (intros b Hb; apply H; now right). reflexivity.
Qed.

(** ** The whole function *)
Theorem initialize_correct fuel : (2 * N + 2 <= fuel)%nat ->
  exists lab bs mask E, initialize_labels nx ny nz data nbs fuel mask0 maxima same sorted = Done (lab, bs, mask) /\
    (* the maxima mask is left as it was *)
    mask = mask0 /\
    Forall (fun bq => position_of nx ny nz (fst bq) (snd bq)) bs /\
    merged nx ny nz data (map fst nbs) vac maxima same sorted lab (map fst bs) E.
Proof.
  intros Hf. unfold initialize_labels.
  destruct init_spec as (Li & Ii & Ji).
  assert (MN : (length maxima <= N)%nat).
  { rewrite <- (map_length num maxima), <- (seq_length N 0). apply NoDup_incl_length.
    - apply NoDup_map_inj_in; [exact Hnodup|]. intros a b Ha Hb. apply num_inj; [now apply Hmaxima in Ha|now apply Hmaxima in Hb].
    - intros i Hi. apply in_map_iff in Hi as (v & <- & Hv). apply in_seq. apply Hmaxima in Hv as [G _].
      pose proof (voxel_number_lt nx ny nz Hx Hy Hz v G). lia. }
  destruct (reduce_loop_done fuel (mask0, []) RI_init) as ([mask1 flats] & E1 & R & SE); [cbn; lia|].
  cbn [snd length] in E1. rewrite E1. cbn [obind].
  destruct (merge_flats_spec fuel mask1 flats R SE Hf (np_unique (map snd flats)) [] L0) as (L1 & Ef & E2 & Len1 & A1 & U1 & P1 & Q1).
  { intros b Hb. now apply (proj1 (np_unique_in _ _)). }
  { exact uf_on0. }
  { exact Li. }
  { reflexivity. }
  rewrite E2. cbn [obind app] in *.
  set (mask2 := restore ny nz mask1 flats).
  pose proof (restore_spec mask1 flats R) as RS. fold mask2 in RS.
  destruct (run_unions_correct fuel (adjacent_requests nx ny nz nbs mask2 maxima) Ef L1 U1) as (L2 & E3 & Len2 & U2 & A2).
  { lia. }
  { intros a b Hab. apply (adjacent_requests_spec mask2 RS) in Hab as (v & w & -> & -> & Mv & Mw & _).
    exists (num v), (num w). rewrite (fl_num v), (fl_num w) by (apply Mv || apply Mw). rewrite !A1, !active0.
    split; [reflexivity|]. split; [reflexivity|]. split; eauto. }
  rewrite E3. cbn [obind].
  destruct (interp_requests_spec mask1 flats (tl sorted) R SE) as (req & E4 & Hreq & Hcom).
  { intros z Hz'. destruct sorted as [|a t]; [exact Hz'|]. now right. }
  rewrite E4. cbn [obind].
  destruct (run_unions_correct fuel req _ L2 U2) as (L3 & E5 & Len3 & U3 & A3).
  { lia. }
  { intros a b Hab. destruct (Hreq a b Hab) as (v & w & -> & -> & Mv & Mw & _).
    exists (num v), (num w). rewrite (fl_num v), (fl_num w) by (apply Mv || apply Mw). rewrite !A2, !A1, !active0.
    split; [reflexivity|]. split; [reflexivity|]. split; eauto. }
  rewrite E5. cbn [obind].
  set (E := (Ef ++ nat_pairs (adjacent_requests nx ny nz nbs mask2 maxima)) ++ nat_pairs req) in *.
  assert (A3' : forall i, active L3 i <-> exists v, ismax v /\ num v = i).
  { intros i. rewrite A3, A2, A1. apply active0. }
  destruct U3 as (G3 & B3 & C3).
  set (rt := fun v => match find_root_nc fuel L3 (fl v) with Done r => r | _ => 0 end).
  assert (RT : forall v, ismax v -> exists r, reaches L3 (num v) r /\ find_root_nc fuel L3 (fl v) = Done (Z.of_nat r) /\ rt v = Z.of_nat r).
  { intros v M. destruct (find_root_correct fuel L3 (num v) G3) as (r & p' & Rr & _ & Er & _).
    { apply A3'. eauto. }
    { lia. }
    exists r. split; [exact Rr|]. unfold rt. rewrite (fl_num v) by apply M. rewrite Er. auto. }
  rewrite (all_done_map _ rt).
  2:{ intros v Hv. apply in_maxima in Hv. destruct (RT v Hv) as (r & _ & -> & ->). reflexivity. }
  cbn [obind].
  pose proof (regroup_spec flats rt (np_unique (map rt maxima)) L3 ltac:(lia)) as RG.
  destruct (regroup nx ny nz data flats maxima (map rt maxima) (np_unique (map rt maxima)) L3) as [L4 bs].
  destruct RG as (Len4 & EB & LB).
  { apply np_unique_NoDup. }
  set (rep := fun u => represent nx ny nz data flats (members (map rt maxima) u)) in *.
  assert (RTC : forall v w, ismax v -> ismax w -> (rt v = rt w <-> connected E (num v) (num w))).
  { intros v w Mv Mw. destruct (RT v Mv) as (r & R1 & _ & ->). destruct (RT w Mw) as (r' & R2 & _ & ->).
    rewrite <- C3 by (apply A3'; eauto). split.
    - intros K. assert (r = r') by lia. subst r'. exists r. auto.
    - intros (s & S1 & S2). rewrite (reaches_fun _ _ _ R1 _ S1), (reaches_fun _ _ _ R2 _ S2). reflexivity. }
  assert (REP : forall v, ismax v -> let b := fst (rep (rt v)) in ismax b /\ rt b = rt v /\
      forall w, ismax w -> rt w = rt v -> (value_at data w <= value_at data b)%Q).
  { intros v M. cbv zeta. destruct (represent_spec flats (members (map rt maxima) (rt v))) as [K1 K2].
    - intros K. assert (In v (members (map rt maxima) (rt v))) by (apply members_in; split; [now apply in_maxima|reflexivity]).
      rewrite K in H. contradiction.
    - intros w Hw. apply members_in in Hw as [Hw _]. now apply Hmaxima in Hw.
    - unfold rep. apply members_in in K1 as [K1 K3]. apply in_maxima in K1. split; [exact K1|]. split; [exact K3|].
      intros w Mw Ew. apply K2. apply members_in. split; [now apply in_maxima|exact Ew]. }
  assert (LAB : forall v, ismax v -> nth_error L4 (num v) = Some (Z.of_nat (num (fst (rep (rt v)))))).
  { intros v M. destruct (LB (num v)) as [K _]; [apply voxel_number_lt; auto; apply M|].
    rewrite <- fl_num by apply (REP v M). apply K; [now apply in_maxima|reflexivity|].
    apply (proj2 (np_unique_in _ _)). apply in_map. now apply in_maxima. }
  assert (EF : forall f, falsemax f -> exists m, flat_pair (num f, num m) /\ In (num f, num m) E).
  { intros f FM. pose proof (falsemax_max f FM) as (Gf & _).
    pose proof (proj2 (settled_flats (mask1, flats) R SE f Gf) FM) as K. cbn [snd] in K.
    destruct (lookup_flat (fl f) flats) as [b|] eqn:LK; [|congruence]. apply lookup_some in LK.
    destruct (Q1 _ _ LK) as (m & K1 & K2).
    { apply (proj2 (np_unique_in _ _)). apply in_map_iff. exists (fl f, b). auto. }
    rewrite (fl_num f Gf), Nat2Z.id in *. exists m. split; [exact K2|]. unfold E. rewrite <- app_assoc. apply in_or_app. now left. }
  assert (RNF : forall v, ismax v -> ~ falsemax (fst (rep (rt v)))).
  { intros v M FM. destruct (REP v M) as (B1 & B2 & B3'). destruct (EF _ FM) as (m & FP & IE).
    destruct FP as (f & m' & [= N1 N2] & FMf & [Mm _] & LT).
    pose proof (falsemax_max f FMf) as Mf. apply num_inj in N1; [|apply B1|apply Mf]. subst f. rewrite N2 in IE.
    assert (rt m' = rt v).
    { rewrite <- B2. symmetry. apply RTC; auto. now apply conn_edge. }
    pose proof (B3' m' Mm H). lra. }
  assert (BSI : forall b, In b (map fst bs) <-> exists v, ismax v /\ b = fst (rep (rt v))).
  { intros b. rewrite EB, map_map, in_map_iff. split.
    - intros (u & <- & Hu). apply (proj1 (np_unique_in _ _)) in Hu. apply in_map_iff in Hu as (v & <- & Hv). exists v. split; [now apply in_maxima|reflexivity].
    - intros (v & M & ->). exists (rt v). split; [reflexivity|]. apply (proj2 (np_unique_in _ _)), in_map. now apply in_maxima. }
  exists L4, bs, mask2, E. split; [reflexivity|]. split; [|split; [|split]].
  - apply (list_ext_nth false); [unfold mask2, restore|].
    + rewrite Hmask0. destruct R as [R1 _ _ _]. cbn in R1. clear -R1. revert R1. generalize mask1.
      induction flats as [|f fs IH]; intros m Lm; cbn [fold_left]; [exact Lm|]. apply IH. unfold mset. now rewrite upd_length.
    + intros i Hi. assert (Lt : (i < N)%nat).
      { rewrite <- Hmask0. revert Hi. unfold mask2, restore. destruct R as [R1 _ _ _]. cbn in R1.
        assert (LL : forall fs m, length (fold_left (fun m (lb : Z * Z) => mset ny nz m (vx_of ny nz (fst lb)) true) fs m) = length m).
        { induction fs as [|f fs IH]; intros m; cbn [fold_left]; [reflexivity|]. rewrite IH. unfold mset. apply upd_length. }
        rewrite LL. lia. }
      destruct (num_surj i Lt) as (v & G & <-). rewrite <- mg_num. apply Bool.eq_iff_eq_true. rewrite (RS v G). symmetry. now apply Hmx.
  - apply Forall_forall. intros bq Hbq. rewrite EB in Hbq. apply in_map_iff in Hbq as (u & <- & Hu).
    apply (proj1 (np_unique_in _ _)) in Hu. apply in_map_iff in Hu as (v & <- & Hv). apply represent_position.
    + intros K. assert (In v (members (map rt maxima) (rt v))) by (apply members_in; auto). rewrite K in H. contradiction.
    + intros w Hw. apply members_in in Hw as [Hw _]. now apply Hmaxima in Hw.
  - exact Len4.
  - intros v G NM. pose proof (voxel_number_lt nx ny nz Hx Hy Hz v G) as Lt. destruct (LB (num v) Lt) as [_ K].
    rewrite K.
    + destruct (nth_error L3 (num v)) as [z|] eqn:Ez.
      * destruct (Z.eq_dec z (-1)) as [->|NZ]; [reflexivity|]. exfalso.
        assert (AC : active L3 (num v)) by (exists z; auto). apply A3' in AC as (u & Mu & Eu).
        apply num_inj in Eu; [|apply Mu|exact G]. now subst.
      * apply nth_error_None in Ez. lia.
    + intros u Hu Eu. apply in_maxima in Hu. apply num_inj in Eu; [|apply Hu|exact G]. now subst.
  - intros m M. destruct (REP m M) as (B1 & B2 & B3'). exists (fst (rep (rt m))). split; [split; [exact B1|now apply RNF]|].
    split; [now apply LAB|]. split; [rewrite LAB by exact B1; now rewrite B2|]. split; [apply BSI; eauto|]. now apply B3'.
  - intros v w Mv Mw. rewrite !LAB by assumption. rewrite <- RTC by assumption. split.
    + intros [= K]. apply Nat2Z.inj in K. destruct (REP v Mv) as (V1 & V2 & _). destruct (REP w Mw) as (W1 & W2 & _).
      apply num_inj in K; [|apply V1|apply W1]. congruence.
    + intros ->. reflexivity.
  - intros e He. unfold E in He. apply in_app_or in He as [He|He]; [apply in_app_or in He as [He|He]|].
    + left. now apply P1.
    + right. left. apply in_map_iff in He as ([a b] & <- & Hab). apply (adjacent_requests_spec mask2 RS) in Hab as (v & w & -> & -> & Mv & Mw & AD).
      exists v, w. cbn [fst snd]. rewrite (fl_num v), (fl_num w) by (apply Mv || apply Mw). rewrite !Nat2Z.id. auto.
    + right. right. apply in_map_iff in He as ([a b] & <- & Hab). destruct (Hreq a b Hab) as (v & w & -> & -> & Mv & Mw & IP).
      cbn [fst snd]. rewrite (fl_num v), (fl_num w) by (apply Mv || apply Mw). rewrite !Nat2Z.id. exact IP.
  - intros e (v & w & -> & Mv & Mw & AD). unfold E. apply in_or_app. left. apply in_or_app. right. apply in_map_iff. exists (fl v, fl w).
    cbn [fst snd]. split.
    + rewrite (fl_num v), (fl_num w) by (apply Mv || apply Mw). now rewrite !Nat2Z.id.
    + apply (adjacent_requests_spec mask2 RS). exists v, w. auto.
  - exact EF.
  - intros a b Ha IP. destruct (Hcom a b Ha IP) as (b' & K1 & K2). exists b'. cbv zeta. split; [|exact K2].
    unfold E. apply in_or_app. right. apply in_map_iff. exists (fl (mx a), fl (mx b')). split; [|exact K1]. cbn [fst snd].
    destruct (Hreq _ _ K1) as (v & w & E1' & E2' & Mv & Mw & _). rewrite E1', E2'.
    assert (Gm : forall i, grid (mx i)).
    { intros i. destruct (Nat.lt_ge_cases i (length maxima)) as [Hi|Hi]; [apply (mx_max i Hi)|].
      rewrite nth_overflow by exact Hi. unfold in_grid. lia. }
    apply fl_inj in E1'; [|apply Gm|apply Mv]. apply fl_inj in E2'; [|apply Gm|apply Mw]. subst v w.
    rewrite (fl_num (mx a)), (fl_num (mx b')) by apply Gm. now rewrite !Nat2Z.id.
  - rewrite EB, map_map. apply NoDup_map_inj_in; [apply np_unique_NoDup|].
    intros u u' Hu Hu' Eq. apply (proj1 (np_unique_in _ _)) in Hu. apply (proj1 (np_unique_in _ _)) in Hu'.
    apply in_map_iff in Hu as (v & <- & Hv). apply in_map_iff in Hu' as (v' & <- & Hv').
    apply in_maxima in Hv, Hv'. destruct (REP v Hv) as (_ & V2 & _). destruct (REP v' Hv') as (_ & V2' & _).
    cbv zeta in *. congruence.
  - intros b Hb. apply BSI in Hb as (v & M & ->). destruct (REP v M) as (B1 & B2 & _). split; [split; [exact B1|now apply RNF]|].
    rewrite LAB by exact B1. now rewrite B2.
Qed.
End L.
