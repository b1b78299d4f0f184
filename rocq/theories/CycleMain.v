From Verif Require Import Base GridModel GridProofs NeighModel RootsModel RootsSpec RootsProofs
  UnionModel UnionSpec UnionProofs ShiftModel ShiftSpec ShiftProofs ChargeModel CoordProofs CycleModel CycleSpec
  CycleForest CycleGroups CycleLin CycleTiny CycleProofs CycleTop.
From Coq Require Import ZifyBool ZifyNat Sorted.

Lemma flat_map_one {T U} (h : T -> list U) l :
  (forall i j a b, nth_error l i = Some a -> nth_error l j = Some b -> h a <> [] -> h b <> [] -> i = j) ->
  (forall a, In a l -> h a <> [] -> flat_map h l = h a) /\
  (flat_map h l = [] \/ exists a, In a l /\ h a <> []).
Proof.
  induction l as [|x l IH]; intros U0; [split; [intros a []|now left]|].
  destruct IH as [IH1 IH2].
  { intros i j a b Ha Hb Na Nb. specialize (U0 (S i) (S j) a b Ha Hb Na Nb). lia. }
  cbn [flat_map]. destruct (h x) as [|y ys] eqn:E.
  - cbn [app]. split.
    + intros a [->|Ha] Na; [congruence|auto].
    + destruct IH2 as [IH2|(a & Ha & Na)]; [now left|right; exists a; auto using in_cons].
  - assert (Z0 : flat_map h l = []).
    { destruct IH2 as [IH2|(a & Ha & Na)]; [exact IH2|]. apply In_nth_error in Ha as (j & Ha).
      specialize (U0 0%nat (S j) x a eq_refl Ha). rewrite E in U0. specialize (U0 ltac:(discriminate) Na). discriminate. }
    rewrite Z0, app_nil_r. split.
    + intros a [<-|Ha] Na; [now rewrite E|]. apply In_nth_error in Ha as (j & Ha).
      specialize (U0 0%nat (S j) x a eq_refl Ha). rewrite E in U0. specialize (U0 ltac:(discriminate) Na). discriminate.
    + right. exists x. split; [now left|]. rewrite E. discriminate.
Qed.

Section Main.
Context (nx ny nz : Z) (fuel : nat) (neighbors : list offset).
Hypothesis Hx : 2 <= nx.
Hypothesis Hy : 2 <= ny.
Hypothesis Hz : 2 <= nz.
Hypothesis US : unit_steps neighbors.
Notation num := (num nx ny nz).
Notation fn := (fn ny nz).
Hypothesis Hfuel : (num <= fuel)%nat.

(** ** Totality, whatever the offsets *)
Section Total.
Context (R A : list (nat * nat * offset)) (f : sforest).
Hypothesis I : s_inv R A num f.
Context (roots : list Z).
Hypothesis SR : StronglySorted Z.lt roots.
Notation st_ok := (st_ok f).

Lemma cycle_neigh_total solid v ra oa : in_grid nx ny nz v ->
  forall ds, incl ds neighbors -> forall p o cyc, st_ok p o ->
  exists p' o' cyc', oloop (cycle_neigh nx ny nz fuel solid v ra oa) ds ((p, o), cyc) = Done ((p', o'), cyc') /\ st_ok p' o'.
Proof.
  intros Gv. induction ds as [|d ds IH]; intros Hi p o cyc ST.
  - exists p, o, cyc. now split.
  - assert (Hd : In d neighbors) by (apply Hi; now left).
    assert (Hi' : incl ds neighbors) by (intros z Hz'; apply Hi; now right).
    cbn [oloop]. unfold cycle_neigh at 1.
    pose proof (neigh3_facts nx ny nz neighbors Hx Hy Hz US v d Gv Hd) as NF.
    destruct (neigh3 nx ny nz v d) as [w s]. destruct NF as (Gw & _).
    destruct (at3 solid w); cbn [negb]; [|cbn [obind]; now apply IH].
    destruct (fn_flat nx ny nz Hx Hy Hz w Gw) as [Fw Lw].
    destruct (s_rpos R A num f (fn w) I Lw) as (rb & ob & Y).
    destruct (find_eq nx ny nz fuel Hfuel R A f I p o (fn w) rb ob ST Y) as (p1 & o1 & FE & ST1).
    cbn [fst snd]. rewrite <- Fw, FE. cbn [obind].
    destruct (ra =? Z.of_nat rb); cbn [negb obind]; now apply IH.
Qed.

Lemma cycle_voxel_total solid prev vac v p o cycles : in_grid nx ny nz v ->
  (is_new solid prev vac v = true -> forall r c, rpos (f_par f) (f_off f) (fn v) r c -> In (Z.of_nat r) roots) ->
  st_ok p o -> length cycles = length roots ->
  exists p' o' cycles', cycle_voxel nx ny nz fuel neighbors roots solid prev vac ((p, o), cycles) v = Done ((p', o'), cycles') /\
    st_ok p' o' /\ length cycles' = length roots.
Proof.
  intros Gv HI ST LC. unfold cycle_voxel. destruct (is_new solid prev vac v); cbn [negb]; [|eauto 8].
  destruct (fn_flat nx ny nz Hx Hy Hz v Gv) as [Fv Lv].
  destruct (s_rpos R A num f (fn v) I Lv) as (ra & oa & X).
  destruct (find_eq nx ny nz fuel Hfuel R A f I p o (fn v) ra oa ST X) as (p1 & o1 & FE & ST1). cbn [fst snd]. rewrite <- Fv, FE. cbn [obind].
  specialize (HI eq_refl ra oa X). pose proof (searchsorted_nth roots SR (Z.of_nat ra) HI) as NT.
  set (t := searchsorted roots (Z.of_nat ra)) in *.
  assert (Lt : (t < length cycles)%nat) by (rewrite LC; apply nth_error_Some; congruence).
  destruct (nth_error cycles t) as [cyc|] eqn:NC; [|apply nth_error_None in NC; lia]. cbn [oget obind].
  destruct (Nat.eqb (length cyc) 3); [eauto 8|].
  destruct (cycle_neigh_total solid v (Z.of_nat ra) oa Gv neighbors (incl_refl _) p1 o1 cyc ST1) as (p2 & o2 & cyc2 & O2 & ST2).
  rewrite O2. cbn [obind]. exists p2, o2, (upd cycles t cyc2). rewrite upd_length. auto.
Qed.

Lemma cycle_loop_total solid prev vac vs : Forall (in_grid nx ny nz) vs ->
  (forall v, In v vs -> is_new solid prev vac v = true -> forall r c, rpos (f_par f) (f_off f) (fn v) r c -> In (Z.of_nat r) roots) ->
  forall p o cycles, st_ok p o -> length cycles = length roots ->
  exists p' o' cycles', oloop (cycle_voxel nx ny nz fuel neighbors roots solid prev vac) vs ((p, o), cycles) = Done ((p', o'), cycles') /\
    st_ok p' o' /\ length cycles' = length roots.
Proof.
  induction vs as [|v vs IH]; intros F HI p o cycles ST LC; [exists p, o, cycles; auto|].
  inversion F as [|? ? Gv F']; subst.
  destruct (cycle_voxel_total solid prev vac v p o cycles Gv (HI v (or_introl eq_refl)) ST LC) as (p1 & o1 & c1 & O1 & ST1 & LC1).
  cbn [oloop]. rewrite O1. cbn [obind]. apply IH; auto. intros u Hu. apply HI. now right.
Qed.

(** Previous cycles. *)
Definition sel (r : nat) (rc : Z * list vec) : list vec :=
  if match find_root_nc fuel (f_par f) (fst rc) with Done z => z =? Z.of_nat r | _ => false end then snd rc else [].

Lemma find_nc x : (x < num)%nat -> exists r, find_root_nc fuel (f_par f) (Z.of_nat x) = Done (Z.of_nat r) /\ is_root f r /\ connected (pr R) x r /\ (r < num)%nat.
Proof.
  intros L. destruct (s_rpos R A num f x I L) as (r & c & X). destruct (rpos_lt _ _ _ _ _ _ _ I X) as (_ & Lr & RR & C).
  destruct (reaches_climb _ _ _ (rpos_reaches _ _ _ _ _ X)) as (k & K). pose proof (climb_lt_length _ _ _ _ K) as LK.
  exists r. split; [|auto]. eapply find_root_nc_spec; [exact K|]. rewrite (si_n _ _ _ _ I) in LK. lia.
Qed.

Lemma old_loop olds : (forall z c, In (z, c) olds -> c <> [] -> exists x, z = Z.of_nat x /\ (x < num)%nat /\
     forall r, find_root_nc fuel (f_par f) z = Done (Z.of_nat r) -> In (Z.of_nat r) roots) ->
  forall acc, length acc = length roots ->
  exists acc', oloop (old_cycle fuel (f_par f) roots) olds acc = Done acc' /\ length acc' = length roots /\
    forall t r, nth_error roots t = Some (Z.of_nat r) -> nth t acc' [] = nth t acc [] ++ flat_map (sel r) olds.
Proof.
  induction olds as [|[z c] olds IH]; intros HO acc LA.
  - exists acc. cbn [oloop flat_map]. split; [reflexivity|]. split; [exact LA|]. intros. now rewrite app_nil_r.
  - assert (HO' : forall z c, In (z, c) olds -> c <> [] -> exists x, z = Z.of_nat x /\ (x < num)%nat /\
     forall r, find_root_nc fuel (f_par f) z = Done (Z.of_nat r) -> In (Z.of_nat r) roots) by (intros; apply HO with c0; auto using in_cons).
    cbn [oloop flat_map]. unfold old_cycle at 1. cbn [snd fst]. destruct c as [|q qs] eqn:EC.
    + cbn [obind]. destruct (IH HO' acc LA) as (acc' & O & L & H). exists acc'. split; [exact O|]. split; [exact L|].
      intros t r Ht. rewrite (H t r Ht). unfold sel at 2. cbn [fst snd].
      destruct (match find_root_nc fuel (f_par f) z with Done z0 => z0 =? Z.of_nat r | _ => false end); reflexivity.
    + rewrite <- EC in *. destruct (HO z c (or_introl eq_refl)) as (x & -> & Lx & HR); [rewrite EC; discriminate|].
      destruct (find_nc x Lx) as (r0 & F0 & _). rewrite F0. cbn [obind].
      specialize (HR r0 F0). pose proof (searchsorted_nth roots SR _ HR) as NT. set (t0 := searchsorted roots (Z.of_nat r0)) in *.
      assert (Lt : (t0 < length acc)%nat) by (rewrite LA; apply nth_error_Some; congruence).
      rewrite (nth_error_nth_lt acc t0 []) by exact Lt. cbn [oget obind].
      destruct (IH HO' (upd acc t0 (nth t0 acc [] ++ c))) as (acc' & O & L & H); [now rewrite upd_length|].
      exists acc'. split; [exact O|]. split; [exact L|]. intros t r Ht. rewrite (H t r Ht), nth_upd.
      unfold sel at 2. cbn [fst snd]. rewrite F0.
      replace (Nat.ltb t0 (length acc)) with true by lia. rewrite andb_true_r.
      destruct (Nat.eqb_spec t0 t) as [<-|NE].
      * assert (r = r0) by (rewrite NT in Ht; injection Ht as Ht; lia). subst r. rewrite Z.eqb_refl. now rewrite app_assoc.
      * destruct (Z.eqb_spec (Z.of_nat r0) (Z.of_nat r)) as [E|]; [|reflexivity]. exfalso. apply NE.
        pose proof (sorted_nodup _ SR) as ND. rewrite NoDup_nth_error in ND. apply ND; [apply nth_error_Some; congruence|congruence].
Qed.
End Total.

(** ** One call *)
Record g_inv (R A : list (nat * nat * offset)) (seen : nat -> Prop) (g : groups) : Prop := {
  gi_s : s_inv R A num (g_f g);
  gi_m : m_inv R seen num (g_f g);
  gi_roots : g_roots g = nonzero (f_mask (g_f g));
  gi_cyc : cyc_ok R (g_roots g) (loops R) (g_cycles g)
}.

Definition merge_free (R R' : list (nat * nat * offset)) : Prop :=
  forall x y s t, loops R x s -> loops R y t -> s <> (0, 0, 0) -> t <> (0, 0, 0) ->
    connected (map fst R') x y -> connected (map fst R) x y.

Lemma in_mask_root R A seen f x r c : s_inv R A num f -> m_inv R seen num f -> seen x ->
  rpos (f_par f) (f_off f) x r c -> In (Z.of_nat r) (nonzero (f_mask f)).
Proof.
  intros I M S X. apply in_nonzero. destruct (rpos_lt _ _ _ _ _ _ _ I X) as (_ & _ & RR & C).
  apply (mi_mask _ _ _ _ M). split; [exact RR|]. eauto.
Qed.

Lemma gs_nonzero l b s : gs l b -> In s b -> s <> (0, 0, 0).
Proof.
  intros G. induction G as [|l b c G IH N]; intros H; [destruct H|].
  apply in_app_or in H as [H|[<-|[]]]; [auto|]. intros ->. apply N. rewrite qoff_zero. apply span_zero.
Qed.

Lemma groups_step solid prev vac g R A seen :
  g_inv R A seen g ->
  (forall u, in_grid nx ny nz u -> mentions R (fn u) -> at3 prev u = true) ->
  let E := grid_edges nx ny nz neighbors (is_new solid prev vac) (at3 solid) in
  exists g' A', get_connected_groups nx ny nz fuel neighbors solid prev vac g =
      Done (g', map (fun c => Z.of_nat (length c)) (g_cycles g')) /\
    s_inv (R ++ E) A' num (g_f g') /\
    let seen' := fun x => seen x \/ mentions E x \/ exists v, In v (voxels nx ny nz) /\ is_new solid prev vac v = true /\ x = fn v in
    m_inv (R ++ E) seen' num (g_f g') /\
    (merge_free R (R ++ E) -> bounded (g_f g') -> g_inv (R ++ E) A' seen' g').
Proof.
  intros [I M GR GC] HM E.
  assert (FV : Forall (in_grid nx ny nz) (voxels nx ny nz)) by (apply Forall_forall; intros v Hv; now apply in_voxels).
  destruct (group_loop nx ny nz fuel neighbors Hx Hy Hz US Hfuel solid prev vac (voxels nx ny nz) FV R A seen (g_f g) I M) as (f1 & A1 & O1 & I1 & AA & M1).
  { intros u Gu NU _ MU. specialize (HM u Gu MU). unfold is_new in NU. rewrite HM in NU. destruct (at3 solid u); discriminate. }
  rewrite <- grid_edges_over in *. fold E in I1, M1. set (seen' := fun x => _) in M1.
  unfold get_connected_groups. rewrite O1. cbn [obind]. unfold find_periodic_cycles. cbn [g_f g_roots g_cycles].
  set (roots := nonzero (f_mask f1)).
  assert (SR : StronglySorted Z.lt roots) by apply nonzero_sorted_aux.
  assert (HOLD : forall z c, In (z, c) (combine (g_roots g) (g_cycles g)) -> exists x, z = Z.of_nat x /\ (x < num)%nat /\ is_root (g_f g) x /\
     forall r, find_root_nc fuel (f_par f1) z = Done (Z.of_nat r) -> In (Z.of_nat r) roots).
  { intros z c H. apply in_combine_l in H. rewrite GR in H. pose proof H as H0. unfold nonzero in H0. apply in_map_iff in H0 as (x & <- & _).
    apply in_nonzero in H. apply (mi_mask _ _ _ _ M) in H as (RX & y & Sy & Cy).
    assert (Lx : (x < num)%nat) by (rewrite <- (si_n _ _ _ _ I); apply nth_error_Some; unfold is_root in RX; congruence).
    exists x. split; [reflexivity|]. split; [exact Lx|]. split; [exact RX|]. intros r F.
    destruct (find_nc (R ++ E) A1 f1 I1 x Lx) as (r' & F' & RR & C & _). assert (r' = r) by (rewrite F' in F; injection F as F; lia). subst r'.
    apply in_nonzero. apply (mi_mask _ _ _ _ M1). split; [exact RR|]. exists y. split; [now left|].
    eapply conn_trans; [|exact C]. eapply connected_mono; [|exact Cy]. intros e He. unfold pr. rewrite map_app. apply in_or_app. now left. }
  destruct (old_loop (R ++ E) A1 f1 I1 roots SR (combine (g_roots g) (g_cycles g))) with (acc := repeat (@nil vec) (length roots)) as (cyc0 & O2 & L2 & H2).
  { intros z c H _. destruct (HOLD z c H) as (x & -> & Lx & _ & HR). eauto. }
  { apply repeat_length. }
  rewrite O2. cbn [obind].
  assert (HIN : forall v, In v (voxels nx ny nz) -> is_new solid prev vac v = true -> forall r c, rpos (f_par f1) (f_off f1) (fn v) r c -> In (Z.of_nat r) roots).
  { intros v Hv NV r c X. apply (in_mask_root (R ++ E) A1 seen' f1 (fn v) r c I1 M1); [|exact X]. right. right. eauto. }
  destruct (cycle_loop_total (R ++ E) A1 f1 I1 roots SR solid prev vac (voxels nx ny nz) FV HIN (f_par f1) (f_off f1) cyc0 (st_ok_init nx ny nz _ _ f1 I1) L2)
    as (p' & o' & cycles & O3 & ST & L3).
  rewrite O3. cbn [obind fst snd].
  set (f' := {| f_par := p'; f_off := o'; f_size := f_size f1; f_mask := f_mask f1 |}).
  exists {| g_f := f'; g_roots := roots; g_cycles := cycles |}, A1. cbn [g_f g_roots g_cycles].
  destruct ST as [SF GP].
  assert (I' : s_inv (R ++ E) A1 num f') by now apply s_inv_find.
  assert (M' : m_inv (R ++ E) seen' num f') by now apply m_inv_find.
  split; [reflexivity|]. split; [exact I'|]. split; [exact M'|]. intros MF B'.
  assert (B1 : bounded f1).
  { intros x r c X. apply (B' x r c). cbn [f' f_par f_off]. now apply SF. }
  split; cbn [g_f g_roots g_cycles]; [exact I'|exact M'|reflexivity|].
  (* the cycles taken over from the previous call *)
  assert (INC : forall x y, connected (pr R) x y -> connected (pr (R ++ E)) x y).
  { intros x y. apply connected_mono. intros e He. unfold pr. rewrite map_app. apply in_or_app. now left. }
  assert (LINC : forall x s, loops R x s -> loops (R ++ E) x s).
  { intros x s. apply linked_incl. intros e He. apply in_or_app. now left. }
  assert (OLDC : forall t0 x0 c0, nth_error (combine (g_roots g) (g_cycles g)) t0 = Some (Z.of_nat x0, c0) ->
     is_root (g_f g) x0 /\ (exists b, gs c0 b /\ Forall (within BB) b /\ forall s, In s b -> loops R x0 s) /\ (forall s, loops R x0 s -> in_span c0 (qoff s))).
  { intros t0 x0 c0 H. pose proof (nth_error_In _ _ H) as Hin. destruct (HOLD _ _ Hin) as (x & EX & _ & RX & _). assert (x = x0) by lia. subst x.
    split; [exact RX|]. destruct GC as [LG GC]. apply (GC t0 x0 c0).
    - clear - H. revert t0 H. generalize (g_roots g), (g_cycles g). intros l; induction l as [|a l IH]; intros [|b l'] [|t] H; cbn in H; try discriminate; [injection H as -> ->; reflexivity|]. cbn. eapply IH; eauto.
    - clear - H. revert t0 H. generalize (g_roots g), (g_cycles g). intros l; induction l as [|a l IH]; intros [|b l'] [|t] H; cbn in H; try discriminate; [injection H as -> ->; reflexivity|]. cbn. eapply IH; eauto. }
  assert (SELC : forall r x c, (x < num)%nat -> sel f1 r (Z.of_nat x, c) <> [] -> c <> [] /\ connected (pr (R ++ E)) x r /\ sel f1 r (Z.of_nat x, c) = c).
  { intros r x c Lx N. unfold sel in *. cbn [fst snd] in *. destruct (find_nc (R ++ E) A1 f1 I1 x Lx) as (r' & F' & RR & C & _). rewrite F' in *.
    destruct (Z.eqb_spec (Z.of_nat r') (Z.of_nat r)) as [Q|]; [|congruence]. assert (r' = r) by lia. subst r'. auto. }
  assert (NZ : forall t0 x0 c0, nth_error (combine (g_roots g) (g_cycles g)) t0 = Some (Z.of_nat x0, c0) -> c0 <> [] ->
     exists s, loops R x0 s /\ s <> (0, 0, 0)).
  { intros t0 x0 c0 H N0. destruct (OLDC _ _ _ H) as (_ & (b & G & _ & LB) & _). destruct b as [|s b].
    - apply gs_len in G. destruct c0; [congruence|discriminate].
    - exists s. split; [apply LB; now left|]. eapply gs_nonzero; [exact G|now left]. }
  assert (ONE : forall r, forall i j a b, nth_error (combine (g_roots g) (g_cycles g)) i = Some a -> nth_error (combine (g_roots g) (g_cycles g)) j = Some b ->
     sel f1 r a <> [] -> sel f1 r b <> [] -> i = j).
  { intros r i j [za ca] [zb cb] Ha Hb Na Nb.
    destruct (HOLD za ca (nth_error_In _ _ Ha)) as (xa & -> & La & RA & _). destruct (HOLD zb cb (nth_error_In _ _ Hb)) as (xb & -> & Lb & RB & _).
    destruct (SELC r xa ca La Na) as (Nca & Ca & _). destruct (SELC r xb cb Lb Nb) as (Ncb & Cb & _).
    destruct (NZ _ _ _ Ha Nca) as (sa & LSa & Nsa). destruct (NZ _ _ _ Hb Ncb) as (sb & LSb & Nsb).
    assert (C : connected (pr R) xa xb).
    { apply (MF xa xb sa sb LSa LSb Nsa Nsb). eapply conn_trans; [exact Ca|]. now apply conn_sym. }
    pose proof (root_unique R A num (g_f g) xa xb I RA RB C) as EX.
    assert (ND : NoDup (g_roots g)) by (rewrite GR; apply sorted_nodup, nonzero_sorted_aux).
    rewrite NoDup_nth_error in ND.
    assert (FST : forall k z c, nth_error (combine (g_roots g) (g_cycles g)) k = Some (z, c) -> nth_error (g_roots g) k = Some z).
    { clear. generalize (g_roots g), (g_cycles g). intros l; induction l as [|a l IH]; intros [|b l'] [|t] z c H; cbn in H; try discriminate; [injection H as -> ->; reflexivity|]. cbn. eapply IH; eauto. }
    apply FST in Ha, Hb. apply ND; [apply nth_error_Some; congruence|]. now rewrite Ha, Hb, EX. }
  set (S0 := fun r s => exists x c, In (Z.of_nat x, c) (combine (g_roots g) (g_cycles g)) /\ connected (pr (R ++ E)) x r /\ loops R x s).
  assert (CO0 : cyc_ok (R ++ E) roots S0 cyc0).
  { split; [exact L2|]. intros t r c Ht Hc.
    assert (Lr : (r < num)%nat /\ is_root f1 r).
    { assert (K : In (Z.of_nat r) roots) by (eapply nth_error_In; eauto). apply in_nonzero in K. apply (mi_mask _ _ _ _ M1) in K as [K _].
      split; [|exact K]. rewrite <- (si_n _ _ _ _ I1). apply nth_error_Some. unfold is_root in K. congruence. }
    destruct Lr as [Lr RR].
    assert (Ec : c = flat_map (sel f1 r) (combine (g_roots g) (g_cycles g))).
    { rewrite <- (nth_error_nth _ _ [] Hc). rewrite (H2 t r Ht). rewrite nth_repeat. reflexivity. }
    destruct (flat_map_one (sel f1 r) _ (ONE r)) as [FO1 FO2]. split.
    - destruct FO2 as [Z0|([z c0] & Hin & N)].
      + exists []. rewrite Ec, Z0. split; [constructor|]. split; [constructor|]. intros s [].
      + rewrite Ec, (FO1 _ Hin N). destruct (HOLD z c0 Hin) as (x & -> & Lx & RX & _). destruct (SELC r x c0 Lx N) as (Nc & C & ->).
        apply In_nth_error in Hin as (t0 & Hin). destruct (OLDC _ _ _ Hin) as (_ & (b & G & F & LB) & _).
        exists b. split; [exact G|]. split; [exact F|]. intros s Hs. apply (loops_move (R ++ E) x r s C). apply LINC. auto.
    - intros s (x & c0 & Hin & C & LS). destruct (HOLD _ _ Hin) as (x' & EX & Lx & RX & _). assert (x' = x) by lia. subst x'.
      pose proof Hin as Hin'. apply In_nth_error in Hin' as (t0 & Hin'). destruct (OLDC _ _ _ Hin') as (_ & _ & SP). specialize (SP s LS).
      destruct (find_nc (R ++ E) A1 f1 I1 x Lx) as (r' & F' & RR' & C' & _).
      assert (r' = r).
      { apply (root_unique (R ++ E) A1 num f1 r' r I1 RR' RR). eapply conn_trans; [apply conn_sym; exact C'|exact C]. } subst r'.
      assert (ES : sel f1 r (Z.of_nat x, c0) = c0) by (unfold sel; cbn [fst snd]; rewrite F', Z.eqb_refl; reflexivity).
      destruct c0 as [|q c0].
      + apply span_nil in SP. apply (span_veq _ vzero); [now symmetry|apply span_zero].
      + rewrite Ec, (FO1 _ Hin) by (rewrite ES; discriminate). now rewrite ES. }
  destruct (cycle_loop nx ny nz fuel neighbors Hx Hy Hz US Hfuel (R ++ E) A1 f1 I1 B1 roots SR solid prev vac (voxels nx ny nz) FV HIN S0 (f_par f1) (f_off f1) cyc0)
    as (p2 & o2 & c2 & O4 & ST4 & CO4); auto.
  { intros e He. apply in_or_app. right. exact He. }
  { eapply st_ok_init; eauto. }
  rewrite O3 in O4. injection O4 as <- <- <-.
  destruct CO4 as [_ CO4]. split; [exact L3|]. intros t r c Ht Hc. destruct (CO4 t r c Ht Hc) as [K1 K2]. split; [exact K1|].
  assert (K : In (Z.of_nat r) roots) by (eapply nth_error_In; eauto). apply in_nonzero in K. apply (mi_mask _ _ _ _ M1) in K as [RR _].
  assert (Lr : (r < num)%nat) by (rewrite <- (si_n _ _ _ _ I1); apply nth_error_Some; unfold is_root in RR; congruence).
  apply (loops_span (R ++ E) A1 num f1 r c I1 Lr). intros a b s ra ca rb cb Hin Car Xa Xb. apply K2.
  assert (ra = r).
  { destruct (rpos_lt _ _ _ _ _ _ _ I1 Xa) as (_ & _ & Rra & Cra). apply (root_unique (R ++ E) A1 num f1 ra r I1 Rra RR).
    eapply conn_trans; [apply conn_sym; exact Cra|exact Car]. } subst ra.
  apply in_app_or in Hin as [Hin|Hin].
  - left. destruct (rpos_lt _ _ _ _ _ _ _ I1 Xa) as (La & _).
    pose proof (edge_loop R A num (g_f g) (R ++ E) A1 f1 a b s r ca rb cb I I1 AA Hin La Xa Xb) as LP.
    destruct (s_rpos R A num (g_f g) a I La) as (x & cx & XA). destruct (rpos_lt _ _ _ _ _ _ _ I XA) as (_ & Lx & RX & CX).
    assert (Hr : In (Z.of_nat x) (g_roots g)).
    { rewrite GR. eapply in_mask_root; [exact I|exact M| |exact XA]. exact (proj1 (mi_seen _ _ _ _ M _ _ _ Hin)). }
    destruct GC as [LG GC]. apply In_nth_error in Hr as (t0 & Hr).
    destruct (nth_error (g_cycles g) t0) as [c0|] eqn:HC; [|apply nth_error_None in HC; assert (t0 < length (g_roots g))%nat by (apply nth_error_Some; congruence); lia].
    exists x, c0. split; [|split].
    + clear - Hr HC. revert t0 Hr HC. generalize (g_roots g), (g_cycles g). intros l; induction l as [|q l IH]; intros [|q' l'] [|t] H1 H2; cbn in *; try discriminate.
      * injection H1 as ->. injection H2 as ->. now left.
      * right. eapply IH; eauto.
    + eapply conn_trans; [apply conn_sym, INC; exact CX|exact Car].
    + eapply loops_move; eauto.
  - right. exists a, b, s, ca, rb, cb. auto.
Qed.

Lemma g_init : g_inv [] [] (fun _ => False) (groups_init num).
Proof.
  split; cbn [groups_init g_f g_roots g_cycles].
  - apply shift_init_inv.
  - apply init_m_inv.
  - cbn [shift_init f_mask]. unfold nonzero.
    replace (filter (fun i => nth i (repeat false num) false) (seq 0 (length (repeat false num)))) with (@nil nat); [reflexivity|].
    symmetry. rewrite repeat_length. generalize (seq 0 num). intros l. induction l as [|i l IH]; [reflexivity|]. cbn [filter]. now rewrite nth_repeat_false.
  - split; [reflexivity|]. intros [|t] r c H; discriminate.
Qed.
End Main.
