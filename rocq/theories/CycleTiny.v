From Verif Require Import Base GridModel NeighModel ShiftModel ShiftSpec ChargeModel CoordProofs StructProps CycleModel CycleSpec CycleLin.
From Coq Require Import Lqa Setoid Morphisms.
Local Open Scope Q_scope.

Definition cross (a b : vec) : vec :=
  let '(a1, a2, a3) := a in let '(b1, b2, b3) := b in (a2 * b3 - a3 * b2, a3 * b1 - a1 * b3, a1 * b2 - a2 * b1).
Definition zcross (a b : offset) : offset :=
  let '(a1, a2, a3) := a in let '(b1, b2, b3) := b in (a2 * b3 - a3 * b2, a3 * b1 - a1 * b3, a1 * b2 - a2 * b1)%Z.
Definition zdot (a b : offset) : Z :=
  let '(a1, a2, a3) := a in let '(b1, b2, b3) := b in (a1 * b1 + a2 * b2 + a3 * b3)%Z.

Lemma qoff_cross a b : veq (qoff (zcross a b)) (cross (qoff a) (qoff b)).
Proof.
  destruct a as [[a1 a2] a3], b as [[b1 b2] b3]. unfold qoff, zcross, cross, veq.
  unfold Z.sub. rewrite !inject_Z_plus, !inject_Z_opp, !inject_Z_mult. repeat split; ring.
Qed.
Lemma qoff_dot a b : dot (qoff a) (qoff b) == inject_Z (zdot a b).
Proof.
  destruct a as [[a1 a2] a3], b as [[b1 b2] b3]. unfold qoff, zdot, dot.
  rewrite !inject_Z_plus, !inject_Z_mult. ring.
Qed.
Lemma qoff_norm a : norm2 (qoff a) == inject_Z (zdot a a).
Proof. rewrite <- dot_norm. apply qoff_dot. Qed.

Lemma vsub_zero a b : veq (vsub a b) vzero -> veq a b.
Proof. vd. unfold veq, vsub, vzero. intros (? & ? & ?). repeat split; lra. Qed.

Lemma res1 c v b t : veq (vsub c v) (scale t b) -> dot b v == 0 ->
  norm2 v * norm2 b == norm2 (cross b c).
Proof.
  destruct c as [[c1 c2] c3], v as [[v1 v2] v3], b as [[b1 b2] b3]. unfold veq, vsub, scale, dot, norm2, cross.
  intros (H1 & H2 & H3) D.
  setoid_replace c1 with (v1 + t * b1) by lra. setoid_replace c2 with (v2 + t * b2) by lra. setoid_replace c3 with (v3 + t * b3) by lra.
  transitivity ((v1*v1+v2*v2+v3*v3) * (b1*b1+b2*b2+b3*b3) - (b1*v1+b2*v2+b3*v3) * (b1*v1+b2*v2+b3*v3)); [rewrite D; ring|ring].
Qed.

Lemma res2 c v a b t u : veq (vsub c v) (vadd (scale t a) (scale u b)) -> dot a v == 0 -> dot b v == 0 ->
  norm2 v * norm2 (cross a b) == dot (cross a b) c * dot (cross a b) c.
Proof.
  destruct c as [[c1 c2] c3], v as [[v1 v2] v3], a as [[a1 a2] a3], b as [[b1 b2] b3]. unfold veq, vsub, vadd, scale, dot, norm2, cross.
  intros (H1 & H2 & H3) DA DB.
  setoid_replace c1 with (v1 + t * a1 + u * b1) by lra. setoid_replace c2 with (v2 + t * a2 + u * b2) by lra. setoid_replace c3 with (v3 + t * a3 + u * b3) by lra.
  clear H1 H2 H3.
  set (w1 := a2 * b3 - a3 * b2). set (w2 := a3 * b1 - a1 * b3). set (w3 := a1 * b2 - a2 * b1).
  assert (E : w1 * (v1 + t * a1 + u * b1) + w2 * (v2 + t * a2 + u * b2) + w3 * (v3 + t * a3 + u * b3) == w1 * v1 + w2 * v2 + w3 * v3) by (unfold w1, w2, w3; ring).
  rewrite E.
  assert (X1 : w2 * v3 - w3 * v2 == (a1 * v1 + a2 * v2 + a3 * v3) * b1 - (b1 * v1 + b2 * v2 + b3 * v3) * a1) by (unfold w2, w3; ring).
  assert (X2 : w3 * v1 - w1 * v3 == (a1 * v1 + a2 * v2 + a3 * v3) * b2 - (b1 * v1 + b2 * v2 + b3 * v3) * a2) by (unfold w1, w3; ring).
  assert (X3 : w1 * v2 - w2 * v1 == (a1 * v1 + a2 * v2 + a3 * v3) * b3 - (b1 * v1 + b2 * v2 + b3 * v3) * a3) by (unfold w1, w2; ring).
  rewrite DA, DB in X1, X2, X3. clearbody w1 w2 w3.
  transitivity ((w1 * v1 + w2 * v2 + w3 * v3) * (w1 * v1 + w2 * v2 + w3 * v3) + (w2 * v3 - w3 * v2) * (w2 * v3 - w3 * v2)
    + (w3 * v1 - w1 * v3) * (w3 * v1 - w1 * v3) + (w1 * v2 - w2 * v1) * (w1 * v2 - w2 * v1)); [ring|].
  rewrite X1, X2, X3. ring.
Qed.

Lemma int_ge1 z : (0 <= z)%Z -> ~ inject_Z z == 0 -> 1 <= inject_Z z.
Proof.
  intros H N. change 1 with (inject_Z 1). rewrite <- Zle_Qle. destruct (Z.eq_dec z 0) as [->|]; [|lia].
  exfalso. apply N. reflexivity.
Qed.

Lemma above_tiny N M : 1 <= N * M -> 0 <= M -> M <= inject_Z 900000000000000000000000 -> 0 <= N -> tiny < N.
Proof.
  intros H HM HB HN. destruct (Qlt_le_dec tiny N) as [|L]; [assumption|]. exfalso.
  assert (A : N * M <= tiny * M) by (apply Qmult_le_compat_r; assumption).
  assert (B : tiny * M <= tiny * inject_Z 900000000000000000000000).
  { rewrite !(Qmult_comm tiny). apply Qmult_le_compat_r; [exact HB|discriminate]. }
  assert (C : tiny * inject_Z 900000000000000000000000 < 1) by reflexivity. lra.
Qed.

Lemma zdot_bound B a : (0 <= B)%Z -> within B a -> (0 <= zdot a a <= 3 * B * B)%Z.
Proof.
  destruct a as [[x y] z]. unfold within, zdot. intros HB (H1 & H2 & H3). nia.
Qed.

Lemma cross_bound B a b : (0 <= B)%Z -> within B a -> within B b -> within (2 * B * B) (zcross a b).
Proof.
  destruct a as [[a1 a2] a3], b as [[b1 b2] b3]. unfold within, zcross. intros HB (A1 & A2 & A3) (B1 & B2 & B3).
  assert (P : forall x y, (-B <= x <= B -> -B <= y <= B -> - (B * B) <= x * y <= B * B)%Z) by (intros; nia).
  pose proof (P a2 b3 A2 B3). pose proof (P a3 b2 A3 B2). pose proof (P a3 b1 A3 B1). pose proof (P a1 b3 A1 B3).
  pose proof (P a1 b2 A1 B2). pose proof (P a2 b1 A2 B1). lia.
Qed.

Lemma gs_le3 l b : gs l b -> (length l <= 3)%nat.
Proof.
  intros G. induction G as [|l b c G IH N]; [cbn; lia|]. rewrite app_length. cbn.
  destruct (Nat.eq_dec (length l) 3) as [E|]; [|lia]. exfalso. apply N. apply ortho3_full; [eapply gs_ortho; eauto|exact E].
Qed.

Lemma zdot_pos a : ~ veq (qoff a) vzero -> (1 <= zdot a a)%Z.
Proof.
  intros N. destruct (Z.eq_dec (zdot a a) 0) as [E|E].
  - exfalso. apply N, norm2_zero. now rewrite qoff_norm, E.
  - destruct a as [[x y] z]. unfold zdot in *. nia.
Qed.

(** Independent integer vectors of bounded size never leave a residual below the
    threshold of the code. *)
Lemma residual_big l b c : gs l b -> ~ in_span l (qoff c) -> Forall (within 500001) b ->
  tiny < norm2 (project l (qoff c)).
Proof.
  intros G N F. pose proof (gs_ortho _ _ G) as O. destruct (project_spec l O (qoff c)) as [S D].
  set (v := project l (qoff c)) in *.
  assert (NV : ~ norm2 v == 0) by (intros Z; apply N; now apply project_zero).
  pose proof (norm2_ge v) as GV.
  assert (DB : forall q, In q b -> dot (qoff q) v == 0).
  { intros q Hq. apply (span_dot l); [exact D|]. apply (gs_span l b G).
    apply in_split in Hq as (b1 & b2 & ->). rewrite map_app. cbn [map].
    assert (H : in_span (map qoff b1 ++ [qoff q]) (qoff q)) by apply span_last.
    revert H. generalize (qoff q) at 2 4. intros z H. replace (map qoff b1 ++ qoff q :: map qoff b2) with ((map qoff b1 ++ [qoff q]) ++ map qoff b2) by now rewrite <- app_assoc.
    induction (map qoff b2) as [|w m IHm] using rev_ind; [now rewrite app_nil_r|]. rewrite app_assoc. now apply span_weak. }
  assert (SB : in_span (map qoff b) (vsub (qoff c) v)) by now apply (gs_span l b G).
  pose proof (gs_le3 _ _ G) as L3. pose proof (gs_len _ _ G) as LB.
  destruct b as [|b1 [|b2 [|b3 [|b4 b]]]]; cbn [length] in LB.
  - destruct l; [|discriminate]. unfold v in *. cbn [project fold_left] in *.
    assert (1 <= norm2 (qoff c)).
    { rewrite qoff_norm in *. apply int_ge1; [|exact NV]. destruct c as [[x y] z]. unfold zdot. nia. }
    unfold tiny. lra.
  - apply span_snoc_inv with (l := []) in SB as (t & SB). apply span_nil in SB.
    assert (R : norm2 v * norm2 (qoff b1) == norm2 (cross (qoff b1) (qoff c))).
    { apply (res1 (qoff c) v (qoff b1) t); [|apply DB; now left].
      now apply vsub_zero. }
    rewrite <- qoff_cross, !qoff_norm in R. inversion F as [|? ? F1 _]; subst.
    pose proof (zdot_bound 500001 b1 ltac:(lia) F1) as ZB.
    apply (above_tiny _ (inject_Z (zdot b1 b1))); [|change 0 with (inject_Z 0); rewrite <- Zle_Qle; lia|rewrite <- Zle_Qle; lia|exact GV].
    rewrite R. apply int_ge1.
    { destruct (zcross b1 c) as [[x y] z]. unfold zdot. nia. }
    rewrite <- R. intros Z. apply Qmult_integral in Z as [Z|Z]; [contradiction|].
    assert (Z1 : (zdot b1 b1 >= 1)%Z).
    { apply Z.le_ge, zdot_pos. intros Z0. inversion G as [|l0 b0 c0 G0 N0 E1 E2]; subst.
      destruct b0; [|destruct b0; discriminate]. injection E2 as ->. inversion G0 as [E3|]; subst; [|destruct b; discriminate].
      apply N0. apply (span_veq [] vzero); [now symmetry|apply span_zero]. }
    change 0 with (inject_Z 0) in Z. unfold Qeq in Z. cbn in Z. lia.
  - change (map qoff [b1; b2]) with ([qoff b1] ++ [qoff b2]) in SB. apply span_snoc_inv in SB as (u & SB). apply span_snoc_inv with (l := []) in SB as (t & SB). apply span_nil in SB.
    assert (R : norm2 v * norm2 (cross (qoff b1) (qoff b2)) == dot (cross (qoff b1) (qoff b2)) (qoff c) * dot (cross (qoff b1) (qoff b2)) (qoff c)).
    { apply (res2 (qoff c) v (qoff b1) (qoff b2) t u); [|apply DB; now left|apply DB; right; now left].
      generalize dependent (scale t (qoff b1)). intros z SB. generalize dependent (scale u (qoff b2)). intros z' SB. generalize dependent (vsub (qoff c) v). intros y _ SB. vd. unfold veq, vsub, vadd, vzero in *. destruct SB as (? & ? & ?). repeat split; lra. }
    assert (NW : ~ norm2 (cross (qoff b1) (qoff b2)) == 0).
    { inversion G as [|l0 b0 c0 G0 N0 E1 E2]; subst. change [b1; b2] with ([b1] ++ [b2]) in E2. apply app_inj_tail in E2 as [-> ->].
      inversion G0 as [|l1 b' c1 G1 N1 E1 E2]; subst. change [b1] with ([] ++ [b1]) in E2. apply app_inj_tail in E2 as [-> ->].
      inversion G1 as [E3|l9 b9 c9 G9 N9 E8 E9]; subst; [|destruct b9; discriminate]. cbn [app] in *. change (project [] (qoff b1)) with (qoff b1) in *.
      destruct (project_spec [qoff b1] (gs_ortho _ _ G0) (qoff b2)) as [S2 D2].
      apply span_snoc_inv with (l := []) in S2 as (t2 & S2). apply span_nil in S2.
      rewrite <- (res1 (qoff b2) (project [qoff b1] (qoff b2)) (qoff b1) t2); [| |apply D2; now left].
      - intros Z. apply Qmult_integral in Z as [Z|Z].
        + apply N0. apply project_zero; [exact (gs_ortho _ _ G0)|exact Z].
        + apply N1. apply norm2_zero in Z. apply (span_veq [] vzero); [now symmetry|apply span_zero].
      - now apply vsub_zero. }
    rewrite <- qoff_cross, qoff_norm, qoff_dot, <- inject_Z_mult in R. rewrite <- qoff_cross, qoff_norm in NW.
    inversion F as [|? ? F1 F']; subst. inversion F' as [|? ? F2 _]; subst.
    pose proof (zdot_bound (2 * 500001 * 500001) (zcross b1 b2) ltac:(lia) (cross_bound 500001 b1 b2 ltac:(lia) F1 F2)) as ZB.
    apply (above_tiny _ (inject_Z (zdot (zcross b1 b2) (zcross b1 b2)))); [|change 0 with (inject_Z 0); rewrite <- Zle_Qle; lia|rewrite <- Zle_Qle; lia|exact GV].
    rewrite R. apply int_ge1; [nia|]. rewrite <- R. intros Z. apply Qmult_integral in Z as [Z|Z]; contradiction.
  - exfalso. apply N. apply ortho3_full; [exact O|exact LB].
  - cbn [length] in *. lia.
Qed.
