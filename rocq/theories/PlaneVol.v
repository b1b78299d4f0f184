(** Properties of volumes by slicing, and the closed form for positive coefficients. *)
From Coq Require Import QArith Qabs Lqa Lia.
From Verif Require Import Base PlaneSpec PlaneInt.
Local Open Scope Q_scope.

(** Slicing over an arbitrary indicator of the half line. *)
Fixpoint volg (s : Q -> Q) (l : list Q) (t v : Q) : Prop :=
  match l with
  | [] => v == s t
  | a :: r => exists f, (forall x, volg s r (t - a * x) (f x)) /\ integral f v
  end.

Definition closed (t : Q) : Q := if Qlt_le_dec t 0 then 0 else 1.
Definition open (t : Q) : Q := if Qlt_le_dec 0 t then 1 else 0.

Lemma volume_volg l : forall t v, volume l t v <-> volg closed l t v.
Proof.
  induction l as [|a r IH]; intros t v; cbn [volume volg].
  - unfold closed. destruct (Qlt_le_dec t 0); split; intros H; try (destruct H as [[]|[]]); try lra.
  - split; intros (f & Hf & Hi); exists f; (split; [intros x; now apply IH|exact Hi]).
Qed.

Record step (s : Q -> Q) : Prop := {
  step_one : forall t, 0 < t -> s t == 1;
  step_zero : forall t, t < 0 -> s t == 0;
  step_range : forall t, 0 <= s t <= 1;
  step_mono : forall t u, t <= u -> s t <= s u }.

Lemma closed_step : step closed.
Proof. split; unfold closed; intros; repeat (destruct Qlt_le_dec; try lra). Qed.
Lemma open_step : step open.
Proof. split; unfold open; intros; repeat (destruct Qlt_le_dec; try lra). Qed.

Section G.
Variable s : Q -> Q.
Hypothesis Hs : step s.

Lemma step_comp t u : t == u -> s t == s u.
Proof. intros E. apply Qle_antisym; apply Hs; lra. Qed.

Lemma volg_mono l : forall t u v w, t <= u -> volg s l t v -> volg s l u w -> v <= w.
Proof.
  induction l as [|a r IH]; intros t u v w L; cbn [volg].
  - intros -> ->. now apply Hs.
  - intros (f & Hf & If) (g & Hg & Ig). apply (integral_mono f g); auto.
    intros x _. apply (IH (t - a * x) (u - a * x)); auto. lra.
Qed.

Lemma volg_unique l t u v w : t == u -> volg s l t v -> volg s l u w -> v == w.
Proof. intros E A B. apply Qle_antisym; eapply volg_mono; eauto; lra. Qed.

Lemma volg_comp l : forall t u v w, t == u -> v == w -> volg s l t v -> volg s l u w.
Proof.
  induction l as [|a r IH]; intros t u v w E F; cbn [volg].
  - intros G. rewrite <- F, G. now apply step_comp.
  - intros (f & Hf & If). exists f. split; [|now apply (integral_comp f v)].
    intros x. apply (IH (t - a * x) (u - a * x) (f x) (f x)); [rewrite E|..]; try reflexivity. apply Hf.
Qed.

Lemma volg_range l : forall t v, volg s l t v -> 0 <= v <= 1.
Proof.
  induction l as [|a r IH]; intros t v; cbn [volg].
  - intros ->. apply Hs.
  - intros (f & Hf & If). split.
    + apply (integral_mono (fun _ => 0) f); auto using integral_const. intros x _. apply (IH _ _ (Hf x)).
    + apply (integral_mono f (fun _ => 1)); auto using integral_const. intros x _. apply (IH _ _ (Hf x)).
Qed.

Lemma volg_flip l1 a r : forall t u v, t == u + a -> volg s (l1 ++ - a :: r) u v -> volg s (l1 ++ a :: r) t v.
Proof.
  induction l1 as [|b l1 IH]; intros t u v E; cbn [volg app].
  - intros (f & Hf & If). exists (fun x => f (1 - x)). split.
    + intros x. apply (volg_comp r (u - - a * (1 - x)) _ (f (1 - x))); [lra|reflexivity|apply Hf].
    + apply integral_flip; auto.
      * intros x y Exy. apply (volg_unique r (u - - a * x) (u - - a * y)); auto. rewrite Exy. reflexivity.
      * intros x. apply (volg_range r _ _ (Hf x)).
  - intros (f & Hf & If). exists f. split; [|exact If]. intros x. apply (IH _ (u - b * x)); [lra|apply Hf].
Qed.

Lemma volg_zero l1 a r : a == 0 -> forall t v, volg s (l1 ++ r) t v -> volg s (l1 ++ a :: r) t v.
Proof.
  intros Ha. induction l1 as [|b l1 IH]; intros t v; cbn [volg app].
  - intros H. exists (fun _ => v). split; [|apply integral_const]. intros x. apply (volg_comp r t _ v); [|reflexivity|exact H].
    rewrite Ha. lra.
  - intros (f & Hf & If). exists f. split; [|exact If]. intros x. apply IH, Hf.
Qed.

(** Everything on one side. *)
Lemma volg_none l : forall t v, (forall x, in_cube (length l) x -> t < dot l x) -> volg s l t v -> v == 0.
Proof.
  induction l as [|a r IH]; intros t v H; cbn [volg].
  - intros ->. apply Hs. apply (H []). split; [reflexivity|constructor].
  - intros (f & Hf & If). apply (integral_unique f); [exact If|]. apply (integral_ext (fun _ => 0)); [|apply integral_const].
    intros x Hx. symmetry. apply (IH (t - a * x)); auto. intros y [Ly Fy].
    assert (C : in_cube (length (a :: r)) (x :: y)) by (split; [cbn; lia|now constructor]).
    specialize (H _ C). cbn [dot] in H. lra.
Qed.
End G.

Lemma volg_all l : forall t v, (forall x, in_cube (length l) x -> dot l x <= t) -> volg closed l t v -> v == 1.
Proof.
  induction l as [|a r IH]; intros t v H; cbn [volg].
  - intros ->. specialize (H []). unfold closed. destruct Qlt_le_dec as [L|]; [|reflexivity].
    cbn in H. assert (0 <= t) by (apply H; split; [reflexivity|constructor]). lra.
  - intros (f & Hf & If). apply (integral_unique f); [exact If|]. apply (integral_ext (fun _ => 1)); [|apply integral_const].
    intros x Hx. symmetry. apply (IH (t - a * x)); auto. intros y [Ly Fy].
    assert (C : in_cube (length (a :: r)) (x :: y)) by (split; [cbn; lia|now constructor]).
    specialize (H _ C). cbn [dot] in H. lra.
Qed.

Lemma volg_compl l : forall t v, volg open l t v -> volg closed (map Qopp l) (- t) (1 - v).
Proof.
  induction l as [|a r IH]; intros t v; cbn [volg map].
  - intros ->. unfold open, closed. destruct (Qlt_le_dec 0 t), (Qlt_le_dec (- t) 0); lra.
  - intros (f & Hf & If). exists (fun x => 1 - f x). split; [|now apply integral_compl].
    intros x. specialize (IH _ _ (Hf x)). revert IH. apply volg_comp; [apply closed_step|lra|lra].
Qed.

(** Positive parts. *)
Definition pos (t : Q) : Q := if Qlt_le_dec 0 t then t else 0.
Definition p2 t := pos t * pos t.
Definition p3 t := pos t * pos t * pos t.

Lemma pos_comp x y : x == y -> pos x == pos y.
Proof. intros E. unfold pos. destruct Qlt_le_dec, Qlt_le_dec; lra. Qed.
Lemma p2_comp x y : x == y -> p2 x == p2 y.
Proof. intros E. unfold p2. now rewrite (pos_comp x y E). Qed.
Lemma p3_comp x y : x == y -> p3 x == p3 y.
Proof. intros E. unfold p3. now rewrite (pos_comp x y E). Qed.

Lemma sq0 x : 0 <= x * x.
Proof. destruct (Qlt_le_dec x 0); nra. Qed.

Lemma p2_smooth u t : Qabs (p2 u - p2 t - 2 * pos t * (u - t)) <= (u - t) * (u - t).
Proof.
  pose proof (sq0 (u - t)). apply Qabs_Qle_condition. unfold p2, pos. destruct (Qlt_le_dec 0 u), (Qlt_le_dec 0 t); split; nra.
Qed.

Lemma p3_smooth M u t : Qabs u <= M -> Qabs t <= M -> Qabs (p3 u - p3 t - 3 * p2 t * (u - t)) <= 5 * M * ((u - t) * (u - t)).
Proof.
  intros Hu Ht. apply Qabs_Qle_condition in Hu, Ht. apply Qabs_Qle_condition. unfold p3, p2, pos.
  destruct (Qlt_le_dec 0 u), (Qlt_le_dec 0 t).
  - assert (E : u * u * u - t * t * t - 3 * (t * t) * (u - t) == (u + 2 * t) * ((u - t) * (u - t))) by ring.
    rewrite E. assert (0 <= (u - t) * (u - t)) by apply sq0. split; nra.
  - assert (E : u * u * u - 0 * 0 * 0 - 3 * (0 * 0) * (u - t) == u * (u * u)) by ring. rewrite E.
    assert (A : u * u <= (u - t) * (u - t)) by nra. assert (0 <= u * u) by apply sq0. assert (0 <= (u - t) * (u - t)) by apply sq0. split; nra.
  - assert (E : 0 * 0 * 0 - t * t * t - 3 * (t * t) * (u - t) == (2 * t - 3 * u) * (t * t)) by ring. rewrite E.
    assert (A : t * t <= (u - t) * (u - t)) by nra. assert (0 <= t * t) by apply sq0. assert (0 <= (u - t) * (u - t)) by apply sq0. split; nra.
  - assert (0 <= (u - t) * (u - t)) by apply sq0. split; nra.
Qed.

Definition f1 a t := (pos t - pos (t - a)) / a.
Definition f2 b a t := (p2 t - p2 (t - a) - p2 (t - b) + p2 (t - a - b)) / (2 * a * b).
Definition f3 c b a t :=
  (p3 t - p3 (t - a) - p3 (t - b) + p3 (t - a - b) - p3 (t - c) + p3 (t - a - c) + p3 (t - b - c) - p3 (t - a - b - c)) / (6 * a * b * c).

Lemma vol1 s a t : step s -> 0 < a -> volg s [a] t (f1 a t).
Proof.
  intros Hs Ha. cbn [volg]. exists (fun x => s (t - a * x)). split; [reflexivity|].
  apply (integral_comp _ ((fun x => - (pos (t - a * x) / a)) 1 - (fun x => - (pos (t - a * x) / a)) 0)).
  { unfold f1. rewrite (pos_comp (t - a * 1) (t - a)), (pos_comp (t - a * 0) t) by lra. field. lra. }
  apply (integral_monotone (fun x => - (pos (t - a * x) / a)) (fun x => s (t - a * x))).
  - intros x y E. rewrite (pos_comp (t - a * x) (t - a * y)); [reflexivity|]. rewrite E. reflexivity.
  - intros x. apply Hs.
  - intros x y E. apply (step_comp s Hs). rewrite E. reflexivity.
  - intros x y _ Hxy _.
    assert (X : forall z z', - (z / a) - - (z' / a) == (z' - z) / a) by (intros; field; lra). rewrite X.
    split; [apply Qle_shift_div_l|apply Qle_shift_div_r]; try lra.
    + assert (A := step_range s Hs (t - a * y)). unfold pos. destruct (Qlt_le_dec 0 (t - a * x)), (Qlt_le_dec 0 (t - a * y)).
      * rewrite (step_one s Hs) by assumption. lra.
      * destruct (Qlt_le_dec (t - a * y) 0) as [N|N]; [rewrite (step_zero s Hs) by exact N; lra|]. 
        assert (t == a * y) by lra. nra.
      * nra.
      * destruct (Qlt_le_dec (t - a * y) 0) as [N|N]; [rewrite (step_zero s Hs) by exact N; lra|]. nra.
    + assert (A := step_range s Hs (t - a * x)). unfold pos. destruct (Qlt_le_dec 0 (t - a * x)), (Qlt_le_dec 0 (t - a * y)).
      * rewrite (step_one s Hs) by assumption. lra.
      * rewrite (step_one s Hs) by assumption. nra.
      * nra.
      * assert (0 <= s (t - a * x) * (a * (y - x))) by (assert (0 <= a * (y - x)) by nra; nra). nra.
Qed.

Lemma vol2 s b a t : step s -> 0 < a -> 0 < b -> volg s [b; a] t (f2 b a t).
Proof.
  intros Hs Ha Hb. cbn [volg]. exists (fun x => f1 a (t - b * x)). split; [intros x; now apply vol1|].
  set (F := fun x => - ((p2 (t - b * x) - p2 (t - b * x - a)) / (2 * a * b))).
  apply (integral_comp _ (F 1 - F 0)).
  { unfold f2, F. rewrite (p2_comp (t - b * 1) (t - b)), (p2_comp (t - b * 0) t), (p2_comp (t - b * 1 - a) (t - a - b)), (p2_comp (t - b * 0 - a) (t - a)) by lra.
    field. lra. }
  apply (integral_smooth F _ (b / a)).
  - intros x y E. unfold F. rewrite (p2_comp (t - b * x) (t - b * y)), (p2_comp (t - b * x - a) (t - b * y - a)); [reflexivity|..]; rewrite E; reflexivity.
  - intros x y _ _. unfold F, f1.
    pose proof (p2_smooth (t - b * y) (t - b * x)) as A. pose proof (p2_smooth (t - b * y - a) (t - b * x - a)) as B.
    apply Qabs_Qle_condition in A, B. 
    set (P := p2 (t - b * y)) in *. set (Q1 := p2 (t - b * x)) in *. set (R := p2 (t - b * y - a)) in *. set (S1 := p2 (t - b * x - a)) in *.
    set (u := pos (t - b * x)) in *. set (v := pos (t - b * x - a)) in *.
    assert (E : - ((P - R) / (2 * a * b)) - - ((Q1 - S1) / (2 * a * b)) - (u - v) / a * (y - x) ==
      ((R - S1 - 2 * v * (t - b * y - a - (t - b * x - a))) - (P - Q1 - 2 * u * (t - b * y - (t - b * x)))) / (2 * a * b)) by (field; lra).
    rewrite E. apply Qabs_Qle_condition.
    assert (Z : 0 < 2 * a * b) by nra.
    assert (K : b / a * ((y - x) * (y - x)) * (2 * a * b) == 2 * ((b * (y - x)) * (b * (y - x)))) by (field; lra).
    split; [apply Qle_shift_div_l|apply Qle_shift_div_r]; try lra.
Qed.

Lemma vol3 s c b a t : step s -> 0 < a -> 0 < b -> 0 < c -> volg s [c; b; a] t (f3 c b a t).
Proof.
  intros Hs Ha Hb Hc. change (exists f, (forall x, volg s [b; a] (t - c * x) (f x)) /\ integral f (f3 c b a t)).
  exists (fun x => f2 b a (t - c * x)). split; [intros x; now apply vol2|].
  set (F := fun x => - ((p3 (t - c * x) - p3 (t - c * x - a) - p3 (t - c * x - b) + p3 (t - c * x - a - b)) / (6 * a * b * c))).
  apply (integral_comp _ (F 1 - F 0)).
  { unfold f3, F.
    rewrite (p3_comp (t - c * 1) (t - c)), (p3_comp (t - c * 0) t), (p3_comp (t - c * 1 - a) (t - a - c)), (p3_comp (t - c * 0 - a) (t - a)),
     (p3_comp (t - c * 1 - b) (t - b - c)), (p3_comp (t - c * 0 - b) (t - b)), (p3_comp (t - c * 1 - a - b) (t - a - b - c)), (p3_comp (t - c * 0 - a - b) (t - a - b)) by lra.
    field. lra. }
  set (M := Qabs t + a + b + c).
  apply (integral_smooth F _ (20 * M * c / (6 * a * b))).
  - intros x y E. unfold F. rewrite (p3_comp (t - c * x) (t - c * y)), (p3_comp (t - c * x - a) (t - c * y - a)), (p3_comp (t - c * x - b) (t - c * y - b)), (p3_comp (t - c * x - a - b) (t - c * y - a - b)); [reflexivity|..]; rewrite E; reflexivity.
  - intros x y Hx Hy. unfold F, f2.
    assert (BM : forall k z, 0 <= z <= 1 -> 0 <= k <= a + b -> Qabs (t - c * z - k) <= M).
    { intros k z Hz Hk. unfold M. assert (T : - Qabs t <= t <= Qabs t) by (apply Qabs_Qle_condition; lra). apply Qabs_Qle_condition. nra. }
    assert (B0 : forall z, 0 <= z <= 1 -> Qabs (t - c * z) <= M).
    { intros z Hz. setoid_replace (t - c * z) with (t - c * z - 0) by lra. apply BM; lra. }
    assert (Bab : forall z, 0 <= z <= 1 -> Qabs (t - c * z - a - b) <= M).
    { intros z Hz. setoid_replace (t - c * z - a - b) with (t - c * z - (a + b)) by lra. apply BM; lra. }
    pose proof (p3_smooth M _ _ (B0 y Hy) (B0 x Hx)) as A1.
    pose proof (p3_smooth M _ _ (BM a y Hy ltac:(lra)) (BM a x Hx ltac:(lra))) as A2.
    pose proof (p3_smooth M _ _ (BM b y Hy ltac:(lra)) (BM b x Hx ltac:(lra))) as A3.
    pose proof (p3_smooth M _ _ (Bab y Hy) (Bab x Hx)) as A4.
    apply Qabs_Qle_condition in A1, A2, A3, A4.
    clear BM B0 Bab.
    set (D := c * (y - x)).
    assert (D1 : t - c * y - (t - c * x) == - D) by (unfold D; ring).
    assert (D2 : t - c * y - a - (t - c * x - a) == - D) by (unfold D; ring).
    assert (D3 : t - c * y - b - (t - c * x - b) == - D) by (unfold D; ring).
    assert (D4 : t - c * y - a - b - (t - c * x - a - b) == - D) by (unfold D; ring).
    rewrite D1 in A1. rewrite D2 in A2. rewrite D3 in A3. rewrite D4 in A4.
    set (Y1 := p3 (t - c * y)) in *. set (Y2 := p3 (t - c * y - a)) in *. set (Y3 := p3 (t - c * y - b)) in *. set (Y4 := p3 (t - c * y - a - b)) in *.
    set (X1 := p3 (t - c * x)) in *. set (X2 := p3 (t - c * x - a)) in *. set (X3 := p3 (t - c * x - b)) in *. set (X4 := p3 (t - c * x - a - b)) in *.
    set (Z1 := p2 (t - c * x)) in *. set (Z2 := p2 (t - c * x - a)) in *. set (Z3 := p2 (t - c * x - b)) in *. set (Z4 := p2 (t - c * x - a - b)) in *.
    assert (Z : 0 < 6 * a * b * c) by (assert (0 < a * b) by nra; assert (0 < a * b * c) by nra; nra).
    assert (E : - ((Y1 - Y2 - Y3 + Y4) / (6 * a * b * c)) - - ((X1 - X2 - X3 + X4) / (6 * a * b * c)) - (Z1 - Z2 - Z3 + Z4) / (2 * a * b) * (y - x) ==
      ((Y2 - X2 - 3 * Z2 * - D) + (Y3 - X3 - 3 * Z3 * - D) - (Y1 - X1 - 3 * Z1 * - D) - (Y4 - X4 - 3 * Z4 * - D)) / (6 * a * b * c)) by (unfold D; field; lra).
    rewrite E. apply Qabs_Qle_condition.
    assert (K : 20 * M * c / (6 * a * b) * ((y - x) * (y - x)) * (6 * a * b * c) == 4 * (5 * M * (- D * - D))) by (unfold D; field; lra).
    split; [apply Qle_shift_div_l|apply Qle_shift_div_r]; try exact Z.
    + setoid_replace (- (20 * M * c / (6 * a * b) * ((y - x) * (y - x))) * (6 * a * b * c)) with (- (4 * (5 * M * (- D * - D)))) by (rewrite <- K; ring). lra.
    + rewrite K. lra.
Qed.
