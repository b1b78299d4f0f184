From Verif Require Import Base GridModel GridProofs NeighModel RootsModel RootsSpec RootsProofs
  UnionModel UnionSpec UnionProofs ShiftModel ShiftSpec ShiftProofs ChargeModel CoordProofs CycleModel CycleSpec
  CycleForest CycleGroups CycleLin CycleTiny CycleProofs.
From Coq Require Import ZifyBool ZifyNat Sorted.

Definition HB : Z := 250000.
Definition bounded (f : sforest) : Prop := forall x r c, rpos (f_par f) (f_off f) x r c -> within HB c.

Lemma within_cycle a b s : within HB a -> within HB b -> within 1 s -> within BB (osub (osub a b) s).
Proof.
  destruct a as [[? ?] ?], b as [[? ?] ?], s as [[? ?] ?]. unfold within, osub, oneg, oadd, HB, BB. lia.
Qed.

Section Top.
Context (nx ny nz : Z) (fuel : nat) (neighbors : list offset).
Hypothesis Hx : 2 <= nx.
Hypothesis Hy : 2 <= ny.
Hypothesis Hz : 2 <= nz.
Hypothesis US : unit_steps neighbors.
Notation num := (num nx ny nz).
Notation fn := (fn ny nz).
Hypothesis Hfuel : (num <= fuel)%nat.

Section Cycles.
Context (R A : list (nat * nat * offset)) (f : sforest).
Hypothesis I : s_inv R A num f.
Hypothesis B : bounded f.

Definition st_ok (p : list Z) (o : list offset) : Prop :=
  same_forest_o (f_par f) (f_off f) p o /\ good_pointers p.

Lemma st_ok_init : st_ok (f_par f) (f_off f).
Proof. split; [apply same_forest_o_refl|]. exact (proj1 (si_uf _ _ _ _ I)). Qed.

Lemma find_eq p o x r c : st_ok p o -> rpos (f_par f) (f_off f) x r c ->
  exists p' o', find_root_with_shift fuel p o (Z.of_nat x) = Done (p', o', Z.of_nat r, c) /\ st_ok p' o'.
Proof.
  intros [SF G] X. pose proof I as [I1 I2 I3 I4 (G0 & AC & BD & CC) I6 I7 I8 I9].
  pose proof SF as ((L & D & RR) & LO & RP). pose proof (RP _ _ _ X) as X'.
  pose proof (reaches_active _ _ _ (rpos_reaches _ _ _ _ _ X')) as AX.
  destruct (find_shift_correct fuel p o x ltac:(congruence) G AX ltac:(lia)) as (r1 & c1 & p1 & o1 & X1 & F & _ & SF1 & G1).
  destruct (rpos_fun _ _ _ _ _ X' _ _ X1) as [<- <-]. exists p1, o1. split; [exact F|]. split; [|exact G1].
  eapply same_forest_o_trans; eauto.
Qed.

Lemma cycle_neigh_loop solid v ra oa : in_grid nx ny nz v -> rpos (f_par f) (f_off f) (fn v) ra oa ->
  forall ds, incl ds neighbors -> incl (edges_of nx ny nz (at3 solid) v ds) R -> forall p o cyc b,
  st_ok p o -> gs cyc b -> Forall (within BB) b ->
  exists p' o' cyc' b', oloop (cycle_neigh nx ny nz fuel solid v (Z.of_nat ra) oa) ds ((p, o), cyc) = Done ((p', o'), cyc') /\
    st_ok p' o' /\ gs cyc' b' /\ Forall (within BB) b' /\ (forall s, In s b' -> In s b \/ loops R (fn v) s) /\
    (forall u, in_span cyc u -> in_span cyc' u) /\
    (forall a w s rb ob, In (a, w, s) (edges_of nx ny nz (at3 solid) v ds) -> rpos (f_par f) (f_off f) w rb ob ->
       in_span cyc' (qoff (osub (osub oa ob) s))).
Proof.
  intros Gv X. induction ds as [|d ds IH]; intros Hi HR p o cyc b ST G F.
  - exists p, o, cyc, b. cbn [oloop]. split; [reflexivity|]. split; [exact ST|]. split; [exact G|]. split; [exact F|]. split; [auto|]. split; [auto|]. intros ? ? ? ? ? [].
  - assert (Hd : In d neighbors) by (apply Hi; now left).
    assert (Hi' : incl ds neighbors) by (intros z Hz'; apply Hi; now right).
    cbn [oloop]. unfold cycle_neigh at 1.
    pose proof (neigh3_facts nx ny nz neighbors Hx Hy Hz US v d Gv Hd) as NF.
    unfold edges_of in *. cbn [flat_map] in *. fold (edges_of nx ny nz (at3 solid) v ds) in *.
    destruct (neigh3 nx ny nz v d) as [w s] eqn:E. destruct NF as (Gw & Nw & Ws & _).
    destruct (at3 solid w) eqn:SW; cbn [negb].
    + cbn [app] in HR. assert (HE : In (fn v, fn w, s) R) by (apply HR; now left).
      assert (HR' : incl (edges_of nx ny nz (at3 solid) v ds) R) by (intros z Hz'; apply HR; now right).
      destruct (fn_flat nx ny nz Hx Hy Hz v Gv) as [Fv Lv], (fn_flat nx ny nz Hx Hy Hz w Gw) as [Fw Lw].
      destruct (s_rpos R A num f (fn w) I Lw) as (rb & ob & Y).
      assert (ER : rb = ra).
      { destruct (rpos_lt _ _ _ _ _ _ _ I X) as (_ & _ & Ra & Ca). destruct (rpos_lt _ _ _ _ _ _ _ I Y) as (_ & _ & Rb & Cb).
        apply (root_unique R A num f rb ra I Rb Ra). eapply conn_trans; [apply conn_sym; exact Cb|].
        eapply conn_trans; [|exact Ca]. apply conn_sym, conn_edge. unfold pr. apply in_map_iff. exists (fn v, fn w, s). auto. }
      subst rb. destruct (find_eq p o (fn w) ra ob ST Y) as (p1 & o1 & FE & ST1).
      cbn [fst snd]. rewrite <- Fw, FE. cbn [obind]. rewrite Z.eqb_refl. cbn [negb obind].
      set (q := osub (osub oa ob) s).
      assert (LQ : loops R (fn v) q) by (apply (edge_loop R A num f R A f (fn v) (fn w) s ra oa ra ob); auto using incl_refl).
      assert (WQ : within BB q) by (apply within_cycle; eauto).
      destruct (add_cycle_spec cyc b q G F WQ) as (b1 & G1 & F1 & IN1 & SP1 & SQ).
      destruct (IH Hi' HR' p1 o1 (add_cycle cyc q) b1 ST1 G1 F1) as (p2 & o2 & cyc2 & b2 & O2 & ST2 & G2 & F2 & IN2 & SP2 & HE2).
      exists p2, o2, cyc2, b2. split; [exact O2|]. split; [exact ST2|]. split; [exact G2|]. split; [exact F2|].
      split; [|split].
      * intros t Ht. apply IN2 in Ht as [Ht|Ht]; [|auto]. apply IN1 in Ht as [Ht| ->]; auto.
      * auto.
      * cbn [app]. intros a w' s' rb ob' [[= <- <- <-]|Hin] Y'.
        -- destruct (rpos_fun _ _ _ _ _ Y _ _ Y') as [_ <-]. apply SP2. exact SQ.
        -- eapply HE2; eauto.
    + cbn [obind app] in *. apply IH; auto.
Qed.

(** Per root: the collected cycles come from loops and generate everything required. *)
Definition cyc_ok (roots : list Z) (S : nat -> offset -> Prop) (cycles : list (list vec)) : Prop :=
  length cycles = length roots /\
  forall t r c, nth_error roots t = Some (Z.of_nat r) -> nth_error cycles t = Some c ->
    (exists b, gs c b /\ Forall (within BB) b /\ forall s, In s b -> loops R r s) /\
    (forall s, S r s -> in_span c (qoff s)).

Lemma cyc_ok_ext roots (S S' : nat -> offset -> Prop) cycles : (forall r s, S' r s -> S r s) -> cyc_ok roots S cycles -> cyc_ok roots S' cycles.
Proof. intros E [L H]. split; [exact L|]. intros t r c Ht Hc. destruct (H t r c Ht Hc) as [K1 K2]. split; auto. Qed.

Lemma nth_error_upd_ne {T} (l : list T) i j x : i <> j -> nth_error (upd l i x) j = nth_error l j.
Proof. intros N. rewrite nth_error_upd. replace (Nat.eqb i j) with false by lia. reflexivity. Qed.

(** Closing shifts of the edges [E]. *)
Definition closing (E : list (nat * nat * offset)) (r : nat) (q : offset) : Prop :=
  exists a w s ca rb cb, In (a, w, s) E /\ rpos (f_par f) (f_off f) a r ca /\ rpos (f_par f) (f_off f) w rb cb /\
    q = osub (osub ca cb) s.

Context (roots : list Z).
Hypothesis SR : StronglySorted Z.lt roots.

Lemma cycle_voxel_step solid prev vac v S p o cycles : in_grid nx ny nz v ->
  (is_new solid prev vac v = true -> forall r c, rpos (f_par f) (f_off f) (fn v) r c -> In (Z.of_nat r) roots) ->
  let E := if is_new solid prev vac v then edges_of nx ny nz (at3 solid) v neighbors else [] in
  incl E R -> st_ok p o -> cyc_ok roots S cycles ->
  exists p' o' cycles', cycle_voxel nx ny nz fuel neighbors roots solid prev vac ((p, o), cycles) v = Done ((p', o'), cycles') /\
    st_ok p' o' /\ cyc_ok roots (fun r q => S r q \/ closing E r q) cycles'.
Proof.
  intros Gv HI E HR ST [LC CO]. unfold cycle_voxel, E in *. destruct (is_new solid prev vac v); cbn [negb].
  2:{ exists p, o, cycles. split; [reflexivity|]. split; [exact ST|]. apply (cyc_ok_ext roots S); [|now split].
      intros r s [H|(a & w & t & ca & rb & cb & [] & _)]. exact H. }
  destruct (fn_flat nx ny nz Hx Hy Hz v Gv) as [Fv Lv].
  destruct (s_rpos R A num f (fn v) I Lv) as (ra & oa & X).
  destruct (find_eq p o (fn v) ra oa ST X) as (p1 & o1 & FE & ST1). cbn [fst snd]. rewrite <- Fv, FE. cbn [obind].
  specialize (HI eq_refl ra oa X). pose proof (searchsorted_nth roots SR (Z.of_nat ra) HI) as NT.
  set (t := searchsorted roots (Z.of_nat ra)) in *.
  assert (Lt : (t < length cycles)%nat) by (rewrite LC; apply nth_error_Some; congruence).
  destruct (nth_error cycles t) as [cyc|] eqn:NC; [|apply nth_error_None in NC; lia]. cbn [oget obind].
  destruct (CO t ra cyc NT NC) as [(b & G & F & LB) SP].
  assert (UNIQ : forall r q, closing (edges_of nx ny nz (at3 solid) v neighbors) r q -> r = ra /\
     exists w s rb cb, In (fn v, w, s) (edges_of nx ny nz (at3 solid) v neighbors) /\ rpos (f_par f) (f_off f) w rb cb /\ q = osub (osub oa cb) s).
  { intros r q (a & w & s & ca & rb & cb & Hin & Xa & Xw & ->).
    pose proof Hin as Hin'. apply in_edges_of in Hin' as (d & w' & _ & _ & _ & -> & _).
    destruct (rpos_fun _ _ _ _ _ X _ _ Xa) as [-> ->]. split; [reflexivity|]. exists w, s, rb, cb. auto. }
  destruct (Nat.eqb_spec (length cyc) 3) as [E3|N3].
  - exists p1, o1, cycles. split; [reflexivity|]. split; [exact ST1|]. split; [exact LC|].
    intros t' r c Ht Hc. destruct (CO t' r c Ht Hc) as [K1 K2]. split; [exact K1|]. intros s [H|H]; [auto|].
    apply UNIQ in H as [-> _].
    assert (t' = t).
    { pose proof (sorted_nodup _ SR) as ND. rewrite NoDup_nth_error in ND. apply ND; [apply nth_error_Some; congruence|congruence]. }
    subst t'. assert (c = cyc) by congruence. subst c. apply ortho3_full; [eapply gs_ortho; eauto|exact E3].
  - destruct (cycle_neigh_loop solid v ra oa Gv X neighbors (incl_refl _) HR p1 o1 cyc b ST1 G F)
      as (p2 & o2 & cyc2 & b2 & O2 & ST2 & G2 & F2 & IN2 & SP2 & HE2).
    rewrite O2. cbn [obind]. exists p2, o2, (upd cycles t cyc2). split; [reflexivity|]. split; [exact ST2|].
    split; [now rewrite upd_length|]. intros t' r c Ht Hc.
    destruct (Nat.eq_dec t t') as [<-|NT'].
    + rewrite nth_error_upd, Nat.eqb_refl in Hc. replace (Nat.ltb t (length cycles)) with true in Hc by lia. cbn [andb] in Hc. injection Hc as <-.
      assert (r = ra) by (rewrite NT in Ht; injection Ht as Ht; lia). subst r. split.
      * exists b2. split; [exact G2|]. split; [exact F2|]. intros s Hs. apply IN2 in Hs as [Hs|Hs]; [auto|].
        apply (loops_move R (fn v)); [|exact Hs]. apply (rpos_lt _ _ _ _ _ _ _ I X).
      * intros s [H|H]; [auto|]. apply UNIQ in H as [_ (w & s' & rb & cb & Hin & Y & ->)]. eapply HE2; eauto.
    + rewrite nth_error_upd_ne in Hc by exact NT'. destruct (CO t' r c Ht Hc) as [K1 K2]. split; [exact K1|].
      intros s [H|H]; [auto|]. apply UNIQ in H as [-> _]. exfalso. apply NT'.
      pose proof (sorted_nodup _ SR) as ND. rewrite NoDup_nth_error in ND. apply ND; [apply nth_error_Some; congruence|congruence].
Qed.

Lemma cycle_loop solid prev vac vs : Forall (in_grid nx ny nz) vs ->
  (forall v, In v vs -> is_new solid prev vac v = true -> forall r c, rpos (f_par f) (f_off f) (fn v) r c -> In (Z.of_nat r) roots) ->
  forall S p o cycles, incl (edges_over nx ny nz neighbors (is_new solid prev vac) (at3 solid) vs) R -> st_ok p o -> cyc_ok roots S cycles ->
  exists p' o' cycles', oloop (cycle_voxel nx ny nz fuel neighbors roots solid prev vac) vs ((p, o), cycles) = Done ((p', o'), cycles') /\
    st_ok p' o' /\ cyc_ok roots (fun r q => S r q \/ closing (edges_over nx ny nz neighbors (is_new solid prev vac) (at3 solid) vs) r q) cycles'.
Proof.
  induction vs as [|v vs IH]; intros F HI S p o cycles HR ST CO.
  - exists p, o, cycles. cbn [oloop]. split; [reflexivity|]. split; [exact ST|]. apply (cyc_ok_ext roots S); [|exact CO].
    intros r s [H|(a & w & t & ca & rb & cb & [] & _)]. exact H.
  - inversion F as [|? ? Gv F']; subst. unfold edges_over in HR. cbn [flat_map] in HR. fold (edges_over nx ny nz neighbors (is_new solid prev vac) (at3 solid) vs) in HR.
    destruct (cycle_voxel_step solid prev vac v S p o cycles Gv (HI v (or_introl eq_refl))) as (p1 & o1 & c1 & O1 & ST1 & CO1); auto.
    { intros z Hz'. apply HR, in_or_app. now left. }
    destruct (IH F') with (S := fun r q => S r q \/ closing (if is_new solid prev vac v then edges_of nx ny nz (at3 solid) v neighbors else []) r q) (p := p1) (o := o1) (cycles := c1)
      as (p2 & o2 & c2 & O2 & ST2 & CO2); auto.
    { intros u Hu. apply HI. now right. }
    { intros z Hz'. apply HR, in_or_app. now right. }
    exists p2, o2, c2. cbn [oloop]. rewrite O1. cbn [obind]. split; [exact O2|]. split; [exact ST2|].
    eapply cyc_ok_ext; [|exact CO2]. intros r s [H|(a & w & t & ca & rb & cb & Hin & K)]; [tauto|].
    unfold edges_over in Hin. cbn [flat_map] in Hin. apply in_app_or in Hin as [Hin|Hin].
    + left. right. exists a, w, t, ca, rb, cb. auto.
    + right. exists a, w, t, ca, rb, cb. auto.
Qed.
End Cycles.
End Top.
