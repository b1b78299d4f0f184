From Verif Require Import Base GridModel GridProofs NeighModel RootsModel RootsSpec RootsProofs
  UnionModel UnionSpec UnionProofs ShiftModel ShiftSpec ShiftProofs ChargeModel CoordProofs CycleModel CycleSpec
  CycleForest CycleGroups CycleLin CycleTiny.
From Coq Require Import ZifyBool ZifyNat Sorted.

Lemma qoff_add a b : veq (qoff (oadd a b)) (vadd (qoff a) (qoff b)).
Proof. destruct a as [[? ?] ?], b as [[? ?] ?]. unfold veq, qoff, oadd, vadd. rewrite !inject_Z_plus. repeat split; reflexivity. Qed.
Lemma qoff_neg a : veq (qoff (oneg a)) (scale (-1) (qoff a)).
Proof. destruct a as [[? ?] ?]. unfold veq, qoff, oneg, scale. rewrite !inject_Z_opp. repeat split; ring. Qed.
Lemma qoff_zero : qoff (0, 0, 0) = vzero. Proof. reflexivity. Qed.

(** ** Loops *)
Lemma loops_move R x y s : connected (pr R) x y -> loops R x s -> loops R y s.
Proof.
  intros C H. destruct (connected_linked R x y C) as (t & L). unfold loops in *.
  replace s with (oadd (oneg t) (oadd s t)) by (clear; ooff).
  eapply linked_trans; [apply linked_sym; exact L|]. eapply linked_trans; [exact H|exact L].
Qed.

Lemma linked_incl A R x y s : incl A R -> linked A x y s -> linked R x y s.
Proof. intros I. induction 1; eauto using linked. Qed.

Lemma s_conn_lt R A n f x y : s_inv R A n f -> connected (pr R) x y -> (x < n)%nat -> (y < n)%nat.
Proof.
  intros [I1 I2 I3 I4 (G & AC & BD & CC) I6 I7 I8 I9] C L. apply I7 in C.
  destruct (connected_mentioned A x y C) as [->|[_ (z & s & H)]]; [exact L|].
  assert (K : forall a b t, In (a, b, t) A -> (a < n)%nat /\ (b < n)%nat).
  { intros a b t Hab. assert (P : In (a, b) (pr A)) by (unfold pr; apply in_map_iff; exists (a, b, t); auto). apply BD in P. lia. }
  destruct H as [H|H]; apply K in H; tauto.
Qed.

Lemma s_rpos R A n f x : s_inv R A n f -> (x < n)%nat -> exists r c, rpos (f_par f) (f_off f) x r c.
Proof.
  intros [I1 I2 I3 I4 (G & AC & BD & CC) I6 I7 I8 I9] L.
  destruct (good_active_reaches _ x G (AC x ltac:(lia))) as (r & X).
  destruct (reaches_rpos (f_par f) (f_off f) x r ltac:(congruence) G X) as (c & Y). eauto.
Qed.

Lemma rpos_lt R A n f x r c : s_inv R A n f -> rpos (f_par f) (f_off f) x r c -> (x < n)%nat /\ (r < n)%nat /\ is_root f r /\ connected (pr R) x r.
Proof.
  intros [I1 I2 I3 I4 (G & AC & BD & CC) I6 I7 I8 I9] H. pose proof (rpos_reaches _ _ _ _ _ H) as X.
  pose proof (lt_active _ _ (reaches_active _ _ _ X)) as L. pose proof (reaches_root _ _ _ X) as Xr.
  assert (Lr : (r < length (f_par f))%nat) by (apply nth_error_Some; congruence).
  split; [lia|]. split; [lia|]. split; [exact Xr|]. apply I7, CC; [lia|lia|]. exists r. split; [exact X|now constructor].
Qed.

Lemma linked_offset R A n f x y s : s_inv R A n f -> linked A x y s -> (x < n)%nat -> forall rx cx ry cy,
  rpos (f_par f) (f_off f) x rx cx -> rpos (f_par f) (f_off f) y ry cy -> osub cx cy = s.
Proof.
  intros I H. pose proof I as [I1 I2 I3 I4 (G & AC & BD & CC) I6 I7 I8 I9].
  induction H as [x|x y s H|x y s H IH|x y z s t H1 IH1 H2 IH2]; intros Hx rx cx ry cy X Y.
  - destruct (rpos_fun _ _ _ _ _ X _ _ Y) as [-> ->]. apply osub_diag.
  - destruct (I8 x y s H) as (r & ca & cb & Ra & Rb & ->).
    destruct (rpos_fun _ _ _ _ _ X _ _ Ra) as [-> ->]. destruct (rpos_fun _ _ _ _ _ Y _ _ Rb) as [-> ->]. reflexivity.
  - rewrite <- (IH (proj1 (rpos_lt _ _ _ _ _ _ _ I Y)) _ _ _ _ Y X). symmetry. apply oneg_osub.
  - assert (Hy : (y < n)%nat).
    { apply (s_conn_lt R A n f x y I); [|exact Hx]. apply I7. eapply linked_connected; exact H1. }
    destruct (s_rpos R A n f y I Hy) as (r0 & c0 & Y0).
    rewrite <- (IH1 Hx _ _ _ _ X Y0), <- (IH2 Hy _ _ _ _ Y0 Y). symmetry. apply osub_trans.
Qed.

(** The shift an edge closes is the shift of a loop, already in the graph [R0] holding
    the edge when the forest of [R0] is part of the present one. *)
Lemma edge_loop R0 A0 n f0 R A f a b s ra ca rb cb : s_inv R0 A0 n f0 -> s_inv R A n f -> incl A0 A ->
  In (a, b, s) R0 -> (a < n)%nat -> rpos (f_par f) (f_off f) a ra ca -> rpos (f_par f) (f_off f) b rb cb ->
  loops R0 a (osub (osub ca cb) s).
Proof.
  intros I0 I AA H La X Y.
  assert (C : connected (pr R0) a b) by (apply conn_edge; unfold pr; apply in_map_iff; exists (a, b, s); auto).
  apply (si_conn _ _ _ _ I0) in C. destruct (connected_linked A0 a b C) as (t & L).
  rewrite (linked_offset R A n f a b t I (linked_incl _ _ _ _ _ AA L) La _ _ _ _ X Y).
  unfold loops, osub. eapply linked_trans; [exact (linked_incl _ _ _ _ _ (si_incl _ _ _ _ I0) L)|].
  apply linked_sym. now apply linked_edge.
Qed.

Lemma loops_span R A n f r cyc : s_inv R A n f -> (r < n)%nat ->
  (forall a b s ra ca rb cb, In (a, b, s) R -> connected (pr R) a r -> rpos (f_par f) (f_off f) a ra ca ->
     rpos (f_par f) (f_off f) b rb cb -> in_span cyc (qoff (osub (osub ca cb) s))) ->
  forall s, loops R r s -> in_span cyc (qoff s).
Proof.
  intros I Lr HE.
  assert (K : forall x y s, linked R x y s -> connected (pr R) x r -> forall rx cx ry cy,
     rpos (f_par f) (f_off f) x rx cx -> rpos (f_par f) (f_off f) y ry cy -> in_span cyc (qoff (osub (osub cx cy) s))).
  { intros x y s H. induction H as [x|x y s H|x y s H IH|x y z s t H1 IH1 H2 IH2]; intros Cx rx cx ry cy X Y.
    - destruct (rpos_fun _ _ _ _ _ X _ _ Y) as [-> ->]. rewrite osub_diag. apply span_zero.
    - eapply HE; eauto.
    - assert (Cy : connected (pr R) x r).
      { eapply conn_trans; [eapply linked_connected; exact H|exact Cx]. }
      apply (span_veq _ (scale (-1) (qoff (osub (osub cy cx) s)))); [|apply span_scale; eauto].
      rewrite <- qoff_neg. replace (oneg (osub (osub cy cx) s)) with (osub (osub cx cy) (oneg s)) by (clear; ooff). reflexivity.
    - assert (Cy : connected (pr R) y r).
      { eapply conn_trans; [apply conn_sym; eapply linked_connected; exact H1|exact Cx]. }
      assert (Ly : (y < n)%nat) by (apply (s_conn_lt R A n f r y I); [now apply conn_sym|exact Lr]).
      destruct (s_rpos R A n f y I Ly) as (r0 & c0 & Y0).
      replace (osub (osub cx cy) (oadd s t)) with (oadd (osub (osub cx c0) s) (osub (osub c0 cy) t)) by (clear; ooff).
      eapply span_veq; [symmetry; apply qoff_add|]. apply span_add; eauto. }
  intros s H. destruct (s_rpos R A n f r I Lr) as (r0 & c0 & Y0).
  pose proof (K r r s H (conn_refl _ _) _ _ _ _ Y0 Y0) as S0.
  apply (span_veq _ (scale (-1) (qoff (osub (osub c0 c0) s)))); [|now apply span_scale].
  rewrite <- qoff_neg. replace (oneg (osub (osub c0 c0) s)) with s by (clear; ooff). reflexivity.
Qed.

(** ** Adding one cycle *)
Definition BB : Z := 500001.

Lemma add_cycle_spec l b q : gs l b -> Forall (within BB) b -> within BB q ->
  exists b', gs (add_cycle l q) b' /\ Forall (within BB) b' /\ (forall s, In s b' -> In s b \/ s = q) /\
    (forall u, in_span l u -> in_span (add_cycle l q) u) /\ in_span (add_cycle l q) (qoff q).
Proof.
  intros G F W. unfold add_cycle. destruct q as [[x y] z].
  destruct ((x =? 0) && (y =? 0) && (z =? 0)) eqn:E0.
  { exists b. split; [exact G|]. split; [exact F|]. split; [auto|]. split; [auto|].
    assert (x = 0 /\ y = 0 /\ z = 0) as (-> & -> & ->) by lia. rewrite qoff_zero. apply span_zero. }
  destruct (Qeq_dec (norm2 (project l (qoff (x, y, z)))) 0) as [E|N].
  - rewrite (proj2 (Qle_bool_iff _ _)) by (rewrite E; discriminate). cbn [negb].
    exists b. split; [exact G|]. split; [exact F|]. split; [auto|]. split; [auto|].
    apply (project_zero l (qoff (x, y, z)) (gs_ortho _ _ G)). exact E.
  - assert (NS : ~ in_span l (qoff (x, y, z))).
    { intros S. apply N. now apply project_zero; [eapply gs_ortho; eauto|]. }
    pose proof (residual_big l b (x, y, z) G NS F) as RB.
    assert (LE : Qle_bool (norm2 (project l (qoff (x, y, z)))) tiny = false).
    { apply not_true_is_false. intros T. apply Qle_bool_iff in T. apply (Qlt_not_le _ _ RB T). }
    rewrite LE. cbn [negb]. exists (b ++ [(x, y, z)]). split; [now constructor|]. split; [apply Forall_app; split; [exact F|now constructor]|].
    split; [intros s Hs; apply in_app_or in Hs as [Hs|[<-|[]]]; auto|]. split; [intros u; apply span_weak|].
    destruct (project_spec l (gs_ortho _ _ G) (qoff (x, y, z))) as [S _].
    apply (span_veq _ (vadd (vsub (qoff (x, y, z)) (project l (qoff (x, y, z)))) (project l (qoff (x, y, z))))).
    { clear. generalize (project l (qoff (x, y, z))). generalize (qoff (x, y, z)). intros p q. vr. }
    apply span_add; [now apply span_weak|apply span_last].
Qed.

(** ** searchsorted *)
Lemma nonzero_sorted_aux m : forall k l, StronglySorted Z.lt (map Z.of_nat (filter (fun i => nth i m false) (seq k l))).
Proof.
  intros k l. revert k. induction l as [|l IH]; intros k; cbn [seq filter map]; [constructor|].
  destruct (nth k m false); [|apply IH]. cbn [map]. constructor; [apply IH|].
  apply Forall_forall. intros z Hz. apply in_map_iff in Hz as (i & <- & Hi). apply filter_In in Hi as [Hi _]. apply in_seq in Hi. lia.
Qed.

Lemma in_nonzero m r : In (Z.of_nat r) (nonzero m) <-> nth r m false = true.
Proof.
  unfold nonzero. rewrite in_map_iff. split.
  - intros (i & E & Hi). apply filter_In in Hi as [_ Hi]. assert (i = r) by lia. now subst.
  - intros H. exists r. split; [reflexivity|]. apply filter_In. split; [|exact H]. apply in_seq.
    destruct (Nat.lt_ge_cases r (length m)) as [L|L]; [lia|]. rewrite nth_overflow in H by exact L. discriminate.
Qed.

Lemma searchsorted_nth l : StronglySorted Z.lt l -> forall x, In x l -> nth_error l (searchsorted l x) = Some x.
Proof.
  unfold searchsorted. induction 1 as [|y l S IH F]; intros x Hx; [destruct Hx|]. cbn [filter].
  destruct Hx as [->|Hx].
  - replace (x <? x) with false by lia.
    assert (E : filter (fun y => y <? x) l = []).
    { clear - F. induction l as [|z l IH]; [reflexivity|]. inversion F as [|? ? A B]; subst. cbn [filter].
      replace (z <? x) with false by lia. now apply IH. }
    rewrite E. reflexivity.
  - rewrite Forall_forall in F. pose proof (F x Hx). replace (y <? x) with true by lia. cbn [length nth_error]. now apply IH.
Qed.

Lemma sorted_nodup l : StronglySorted Z.lt l -> NoDup l.
Proof.
  induction 1 as [|y l S IH F]; constructor; [|exact IH]. intros H. rewrite Forall_forall in F. specialize (F y H). lia.
Qed.
