From Verif Require Import Base GridModel NeighModel ShiftModel ShiftSpec ChargeModel CoordProofs StructProps CycleModel CycleSpec.
From Coq Require Import Lqa Setoid Morphisms.
Local Open Scope Q_scope.

Ltac vd := repeat match goal with v : vec |- _ => destruct v as [[? ?] ?]
  | v : (Q * Q * Q)%type |- _ => destruct v as [[? ?] ?] end.

Lemma veq_sym a b : veq a b -> veq b a.
Proof. vd. unfold veq. intros (-> & -> & ->). repeat split; reflexivity. Qed.

Global Instance veq_equiv : Equivalence veq.
Proof. split; [exact veq_refl|exact veq_sym|exact veq_trans]. Qed.

Global Instance vadd_m : Proper (veq ==> veq ==> veq) vadd.
Proof. intros a b H c d K. vd. unfold veq, vadd in *. destruct H as (-> & -> & ->), K as (-> & -> & ->). repeat split; reflexivity. Qed.
Global Instance vsub_m : Proper (veq ==> veq ==> veq) vsub.
Proof. intros a b H c d K. vd. unfold veq, vsub in *. destruct H as (-> & -> & ->), K as (-> & -> & ->). repeat split; reflexivity. Qed.
Global Instance scale_m : Proper (Qeq ==> veq ==> veq) scale.
Proof. intros a b H c d K. vd. unfold veq, scale in *. destruct K as (-> & -> & ->). rewrite H. repeat split; reflexivity. Qed.
Global Instance dot_m : Proper (veq ==> veq ==> Qeq) dot.
Proof. intros a b H c d K. vd. unfold veq, dot in *. destruct H as (-> & -> & ->), K as (-> & -> & ->). reflexivity. Qed.
Global Instance norm2_m : Proper (veq ==> Qeq) norm2.
Proof. intros a b H. now apply norm2_comp. Qed.

Ltac vr := vd; unfold veq, vadd, vsub, scale, dot, vzero in *; cbn beta iota in *; try (repeat split; ring).

Lemma dot_norm v : dot v v == norm2 v. Proof. vd. unfold dot, norm2. ring. Qed.
Lemma dot_comm a b : dot a b == dot b a. Proof. vr. Qed.
Lemma dot_add a b c : dot (vadd a b) c == dot a c + dot b c. Proof. vr. Qed.
Lemma dot_sub a b c : dot (vsub a b) c == dot a c - dot b c. Proof. vr. Qed.
Lemma dot_scale t a c : dot (scale t a) c == t * dot a c. Proof. vr. Qed.
Lemma dot_zero c : dot vzero c == 0. Proof. vr. Qed.
Lemma norm2_zero v : norm2 v == 0 -> veq v vzero.
Proof. vd. unfold norm2, veq, vzero. intros H. now apply sum_sq_zero. Qed.
Lemma norm2_ge v : 0 <= norm2 v.
Proof. vd. unfold norm2. pose proof (sq_nonneg q). pose proof (sq_nonneg q1). pose proof (sq_nonneg q0). lra. Qed.

(** ** Spans *)
Lemma lincomb_snoc cs c : forall l v, length cs = length l ->
  veq (lincomb (cs ++ [c]) (l ++ [v])) (vadd (lincomb cs l) (scale c v)).
Proof.
  induction cs as [|d cs IH]; intros [|w l] v L; cbn in L; try discriminate.
  - cbn [app lincomb]. vr.
  - cbn [app lincomb]. rewrite IH by congruence. generalize (lincomb cs l). intros z. vr.
Qed.

Lemma span_veq l u v : veq u v -> in_span l u -> in_span l v.
Proof. intros E (cs & L & H). exists cs. split; [exact L|]. now rewrite <- E. Qed.

Lemma span_zero l : in_span l vzero.
Proof.
  exists (repeat 0 (length l)). split; [apply repeat_length|]. symmetry.
  induction l as [|v l IH]; cbn [length repeat lincomb]; [reflexivity|]. rewrite IH. vr.
Qed.

Lemma span_add l u v : in_span l u -> in_span l v -> in_span l (vadd u v).
Proof.
  intros (cs & L & H) (ds & M & K). exists (map (fun p => fst p + snd p) (combine cs ds)).
  split; [rewrite map_length, combine_length; lia|]. rewrite H, K. clear u v H K.
  revert cs ds L M. induction l as [|w l IH]; intros [|c cs] [|d ds] L M; cbn in L, M; try discriminate; cbn [lincomb combine map].
  - vr.
  - rewrite <- IH by congruence. generalize (lincomb cs l), (lincomb ds l). intros a b. cbn [fst snd]. vr.
Qed.

Lemma span_scale l t u : in_span l u -> in_span l (scale t u).
Proof.
  intros (cs & L & H). exists (map (Qmult t) cs). split; [now rewrite map_length|]. rewrite H. clear u H.
  revert cs L. induction l as [|w l IH]; intros [|c cs] L; cbn in L; try discriminate; cbn [lincomb map].
  - vr.
  - rewrite <- IH by congruence. generalize (lincomb cs l). intros a. vr.
Qed.

Lemma span_sub l u v : in_span l u -> in_span l v -> in_span l (vsub u v).
Proof.
  intros H K. apply (span_veq l (vadd u (scale (-1) v))); [vr|]. apply span_add; [exact H|now apply span_scale].
Qed.

Lemma span_weak l w u : in_span l u -> in_span (l ++ [w]) u.
Proof.
  intros (cs & L & H). exists (cs ++ [0]). split; [rewrite !app_length; cbn; lia|].
  rewrite lincomb_snoc by exact L. rewrite H. generalize (lincomb cs l). intros a. vr.
Qed.

Lemma span_last l w : in_span (l ++ [w]) w.
Proof.
  destruct (span_zero l) as (cs & L & H). exists (cs ++ [1]). split; [rewrite !app_length; cbn; lia|].
  rewrite lincomb_snoc by exact L. rewrite <- H. vr.
Qed.

Lemma span_snoc_inv l w u : in_span (l ++ [w]) u -> exists c, in_span l (vsub u (scale c w)).
Proof.
  intros (cs & L & H). rewrite app_length in L. cbn in L.
  destruct (exists_last (l := cs)) as (ds & c & ->); [intros ->; cbn in L; lia|].
  rewrite app_length in L. cbn in L. exists c. exists ds. split; [lia|]. rewrite H, lincomb_snoc by lia.
  generalize (lincomb ds l). intros a. vr.
Qed.

Lemma span_nil u : in_span [] u -> veq u vzero.
Proof. intros ([|c cs] & L & H); [exact H|discriminate]. Qed.

Lemma span_dot l u v : (forall q, In q l -> dot q v == 0) -> in_span l u -> dot u v == 0.
Proof.
  intros O (cs & L & H). rewrite H. clear u H. revert cs L. induction l as [|w l IH]; intros [|c cs] L; cbn in L; try discriminate; cbn [lincomb].
  - apply dot_zero.
  - rewrite dot_add, dot_scale, (O w (or_introl eq_refl)), IH; [ring| |congruence]. intros q Hq. apply O. now right.
Qed.

Lemma span_sub_all l m u : (forall q, In q l -> in_span m q) -> in_span l u -> in_span m u.
Proof.
  intros O (cs & L & H). apply (span_veq m (lincomb cs l)); [now symmetry|]. clear u H. revert cs L. induction l as [|w l IH]; intros [|c cs] L; cbn in L; try discriminate; cbn [lincomb].
  - apply span_zero.
  - apply span_add; [apply span_scale, O; now left|]. apply IH; [|congruence]. intros q Hq. apply O. now right.
Qed.

(** ** Orthogonal lists *)
Inductive ortho : list vec -> Prop :=
| ortho_nil : ortho []
| ortho_snoc l v : ortho l -> (forall q, In q l -> dot q v == 0) -> ~ norm2 v == 0 -> ortho (l ++ [v]).

Lemma ortho_nz l : ortho l -> forall q, In q l -> ~ norm2 q == 0.
Proof. induction 1 as [|l v O IH P N]; intros q Hq; [destruct Hq|]. apply in_app_or in Hq as [Hq|[<-|[]]]; auto. Qed.

Lemma project_snoc l v c : project (l ++ [v]) c =
  vsub (project l c) (scale (dot (project l c) v / dot v v) v).
Proof. unfold project. now rewrite fold_left_app. Qed.

Lemma project_spec l : ortho l -> forall c,
  in_span l (vsub c (project l c)) /\ forall q, In q l -> dot q (project l c) == 0.
Proof.
  induction 1 as [|l v O IH P N]; intros c.
  - split; [|intros q []]. unfold project. cbn [fold_left]. apply (span_veq [] vzero); [vr|apply span_zero].
  - destruct (IH c) as [S D]. rewrite project_snoc. set (p := project l c) in *. clearbody p.
    set (t := dot p v / dot v v). assert (E : dot p v - t * dot v v == 0).
    { unfold t. field. now rewrite dot_norm. } clearbody t. split.
    + apply (span_veq _ (vadd (vsub c p) (scale t v))); [vr|].
      apply span_add; [now apply span_weak|]. apply span_scale, span_last.
    + intros q Hq. rewrite dot_comm, dot_sub, dot_scale. apply in_app_or in Hq as [Hq|[<-|[]]].
      * rewrite (dot_comm p q), (D q Hq), (dot_comm v q), (P q Hq). ring.
      * exact E.
Qed.

Lemma project_zero l c : ortho l -> (norm2 (project l c) == 0 <-> in_span l c).
Proof.
  intros O. destruct (project_spec l O c) as [S D]. split.
  - intros Z. apply norm2_zero in Z. apply (span_veq l (vsub c (project l c))); [|exact S]. rewrite Z. vr.
  - intros H. rewrite <- dot_norm. apply (span_dot l); [intros q Hq; now apply D|].
    apply (span_veq l (vsub c (vsub c (project l c)))); [generalize (project l c); intros p; vr|]. now apply span_sub.
Qed.

(** ** Gram-Schmidt with the integer vectors it came from *)
Inductive gs : list vec -> list offset -> Prop :=
| gs_nil : gs [] []
| gs_snoc l b c : gs l b -> ~ in_span l (qoff c) -> gs (l ++ [project l (qoff c)]) (b ++ [c]).

Lemma gs_len l b : gs l b -> length l = length b.
Proof. induction 1; [reflexivity|]. rewrite !app_length. cbn. congruence. Qed.

Lemma gs_ortho l b : gs l b -> ortho l.
Proof.
  induction 1 as [|l b c G IH N]; [constructor|]. constructor; [exact IH|apply project_spec; exact IH|].
  intros Z. apply N. now apply project_zero.
Qed.

Lemma gs_span l b : gs l b -> forall u, in_span l u <-> in_span (map qoff b) u.
Proof.
  induction 1 as [|l b c G IH N]; intros u; [reflexivity|]. rewrite map_app. cbn [map].
  destruct (project_spec l (gs_ortho _ _ G) (qoff c)) as [S _]. set (p := project l (qoff c)) in *. clearbody p.
  set (q := qoff c) in *. clearbody q. split.
  - intros H. apply span_snoc_inv in H as (t & H). apply (span_veq _ (vadd (vsub u (scale t p)) (scale t (vsub q (vsub q p))))); [vr|].
    apply span_add; [apply span_weak, IH, H|]. apply span_scale, span_sub; [apply span_last|apply span_weak, IH, S].
  - intros H. apply span_snoc_inv in H as (t & H). apply (span_veq _ (vadd (vsub u (scale t q)) (scale t (vadd p (vsub q p))))); [vr|].
    apply span_add; [apply span_weak, IH, H|]. apply span_scale, span_add; [apply span_last|apply span_weak, S].
Qed.

Lemma gs_independent l b : gs l b -> independent (map qoff b).
Proof.
  induction 1 as [|l b c G IH N]; intros cs L H.
  - destruct cs; [constructor|discriminate].
  - rewrite map_app in *. cbn [map] in *. rewrite app_length in L. cbn in L.
    destruct (exists_last (l := cs)) as (ds & d & ->); [intros ->; cbn in L; lia|].
    rewrite app_length in L. cbn in L. assert (L' : length ds = length (map qoff b)) by lia. rewrite lincomb_snoc in H by exact L'.
    assert (D0 : d == 0).
    { destruct (Qeq_dec d 0) as [|ND]; [assumption|]. exfalso. apply N. apply (gs_span l b G).
      apply (span_veq _ (scale (- / d) (lincomb ds (map qoff b)))).
      - destruct (lincomb ds (map qoff b)) as [[x y] z], (qoff c) as [[x' y'] z']. unfold veq, vadd, scale, vzero in *.
        destruct H as (H1 & H2 & H3). repeat split.
        + setoid_replace x with (- d * x') by lra. field. exact ND.
        + setoid_replace y with (- d * y') by lra. field. exact ND.
        + setoid_replace z with (- d * z') by lra. field. exact ND.
      - apply span_scale. exists ds. split; [exact L'|reflexivity]. }
    apply Forall_app. split; [|now constructor]. apply IH; [exact L'|].
    rewrite <- H, D0. generalize (lincomb ds (map qoff b)), (qoff c). intros x y. vr.
Qed.

(** Three orthogonal vectors span everything. *)
Lemma ortho3_full l : ortho l -> length l = 3%nat -> forall u, in_span l u.
Proof.
  intros O L u. apply (project_zero l u O). destruct (project_spec l O u) as [_ D].
  generalize dependent (project l u). intros w D. clear u.
  inversion O as [|l2 v3 O2 P3 N3]; subst; [discriminate|]. rewrite app_length in L. cbn in L.
  inversion O2 as [|l1 v2 O1 P2 N2]; subst; [cbn in L; lia|]. rewrite app_length in L. cbn in L.
  inversion O1 as [|l0 v1 O0 P1 N1]; subst; [cbn in L; lia|]. rewrite app_length in L. cbn in L.
  destruct l0; [|cbn in L; lia]. cbn [app] in *.
  assert (D12 := P2 v1 (or_introl eq_refl)). assert (D13 := P3 v1 (or_introl eq_refl)).
  assert (D23 := P3 v2 (or_intror (or_introl eq_refl))).
  assert (W1 := D v1 (or_introl eq_refl)). assert (W2 := D v2 (or_intror (or_introl eq_refl))).
  assert (W3 := D v3 (or_intror (or_intror (or_introl eq_refl)))).
  clear - N1 N2 N3 D12 D13 D23 W1 W2 W3.
  destruct v1 as [[a1 a2] a3], v2 as [[b1 b2] b3], v3 as [[c1 c2] c3], w as [[x y] z].
  unfold dot, norm2 in *.
  set (dt := a1 * (b2 * c3 - b3 * c2) - a2 * (b1 * c3 - b3 * c1) + a3 * (b1 * c2 - b2 * c1)).
  assert (DD : dt * dt == (a1*a1+a2*a2+a3*a3) * (b1*b1+b2*b2+b3*b3) * (c1*c1+c2*c2+c3*c3)).
  { transitivity ((a1*a1+a2*a2+a3*a3) * (b1*b1+b2*b2+b3*b3) * (c1*c1+c2*c2+c3*c3)
      + 2 * (a1*b1+a2*b2+a3*b3) * (a1*c1+a2*c2+a3*c3) * (b1*c1+b2*c2+b3*c3)
      - (a1*a1+a2*a2+a3*a3) * (b1*c1+b2*c2+b3*c3) * (b1*c1+b2*c2+b3*c3)
      - (b1*b1+b2*b2+b3*b3) * (a1*c1+a2*c2+a3*c3) * (a1*c1+a2*c2+a3*c3)
      - (c1*c1+c2*c2+c3*c3) * (a1*b1+a2*b2+a3*b3) * (a1*b1+a2*b2+a3*b3)).
    - unfold dt. ring.
    - rewrite D12, D13, D23. ring. }
  assert (ND : ~ dt == 0).
  { intros E. rewrite E in DD. assert (Z : (a1*a1+a2*a2+a3*a3) * (b1*b1+b2*b2+b3*b3) * (c1*c1+c2*c2+c3*c3) == 0) by (rewrite <- DD; ring).
    apply Qmult_integral in Z as [Z|Z]; [|contradiction]. apply Qmult_integral in Z as [Z|Z]; contradiction. }
  assert (CX : dt * x == (a1*x+a2*y+a3*z) * (b2*c3-b3*c2) + (b1*x+b2*y+b3*z) * (c2*a3-c3*a2) + (c1*x+c2*y+c3*z) * (a2*b3-a3*b2)) by (unfold dt; ring).
  assert (CY : dt * y == (a1*x+a2*y+a3*z) * (b3*c1-b1*c3) + (b1*x+b2*y+b3*z) * (c3*a1-c1*a3) + (c1*x+c2*y+c3*z) * (a3*b1-a1*b3)) by (unfold dt; ring).
  assert (CZ : dt * z == (a1*x+a2*y+a3*z) * (b1*c2-b2*c1) + (b1*x+b2*y+b3*z) * (c1*a2-c2*a1) + (c1*x+c2*y+c3*z) * (a1*b2-a2*b1)) by (unfold dt; ring).
  rewrite W1, W2, W3 in CX, CY, CZ. clearbody dt.
  assert (X : x == 0). { assert (T : dt * x == 0) by (rewrite CX; ring). apply Qmult_integral in T as [T|T]; [contradiction|exact T]. }
  assert (Y : y == 0). { assert (T : dt * y == 0) by (rewrite CY; ring). apply Qmult_integral in T as [T|T]; [contradiction|exact T]. }
  assert (Z : z == 0). { assert (T : dt * z == 0) by (rewrite CZ; ring). apply Qmult_integral in T as [T|T]; [contradiction|exact T]. }
  rewrite X, Y, Z. ring.
Qed.
