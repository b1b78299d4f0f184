(** Proofs about the fraction of the unit cube under a plane. *)
From Coq Require Import QArith Qabs Qpower Lqa Lia.
From Verif Require Import Base RootsModel UnionModel ChargeModel CoordModel NearModel NearSpec NearProofs InterpProofs WeightModel RefineModel PlaneModel PlaneSpec PlaneInt PlaneVol.
Local Open Scope Q_scope.

Definition fin (x : Q) : Q := clamp01 (qabs (round12 x)).

Lemma round12_comp x y : x == y -> round12 x == round12 y.
Proof. intros E. unfold round12. rewrite (py_round_comp (x * inject_Z (10 ^ 12)) (y * inject_Z (10 ^ 12))); [reflexivity|]. rewrite E. reflexivity. Qed.

Lemma py_round_int z : py_round (inject_Z z) = z.
Proof. apply (nearest_even_fun (inject_Z z) (inject_Z z)); [reflexivity|apply py_round_spec|]. split; [split; lra|]. intros [H|H]; lra. Qed.

Lemma py_round_mono p q : p <= q -> (py_round p <= py_round q)%Z.
Proof.
  intros H. destruct (Z.le_gt_cases (py_round p) (py_round q)) as [L|L]; [exact L|].
  destruct (py_round_spec p) as [[A B] _]. destruct (py_round_spec q) as [[C D] _].
  assert (inject_Z (py_round q) + 1 <= inject_Z (py_round p)) by (rewrite <- (inject_Z_plus _ 1), <- Zle_Qle; lia).
  assert (E : p == q) by lra. rewrite (py_round_comp _ _ E). lia.
Qed.

Lemma round12_mono x y : x <= y -> round12 x <= round12 y.
Proof.
  intros H. unfold round12. assert (E : inject_Z (py_round (x * inject_Z (10 ^ 12))) <= inject_Z (py_round (y * inject_Z (10 ^ 12)))).
  { rewrite <- Zle_Qle. apply py_round_mono. apply Qmult_le_compat_r; [exact H|]. unfold Qle; cbn; lia. }
  unfold Qdiv. apply Qmult_le_compat_r; [exact E|]. unfold Qle; cbn; lia.
Qed.

Lemma round12_0 : round12 0 == 0.
Proof. reflexivity. Qed.
Lemma round12_1 : round12 1 == 1.
Proof. reflexivity. Qed.

Lemma fin_round x : 0 <= x <= 1 -> fin x == round12 x.
Proof.
  intros [A B]. apply round12_mono in A, B. rewrite round12_0 in A. rewrite round12_1 in B.
  unfold fin. revert A B. generalize (round12 x) as r. intros r A B. unfold clamp01, qmin, qmax, qabs.
  destruct (Qltb_spec r 0); [lra|]. destruct (Qltb_spec 0 r); [destruct (Qltb_spec 1 r); lra|]. destruct (Qltb_spec 1 0); lra.
Qed.

(** The sum over the corners. *)
Definition cdot (v : list Z) (coeffs : list Q) : Q := fold_left (fun acc '(i, j) => acc + inject_Z i * j) (combine v coeffs) 0.
Definition csign (v : list Z) : Q := if (fold_left Z.add v 0 mod 2 =? 1)%Z then -1 else 1.

Lemma corner_sum_qsum coeffs n d :
  corner_sum coeffs n d == qsum (map (fun v => csign v * (pos (d - cdot v coeffs) ^ Z.of_nat n)) (corner_bits n)) \/ n = O.
Proof.
  destruct n as [|n]; [now right|left]. unfold corner_sum.
  assert (G : forall l acc, fold_left (fun volume v =>
    let dot := fold_left (fun acc '(i, j) => acc + inject_Z i * j) (combine v coeffs) 0 in
    let weight := fold_left Z.add v 0%Z in
    let base := d - dot in
    if Qltb 0 base
    then let term := base ^ Z.of_nat (S n) in if (weight mod 2 =? 1)%Z then volume - term else volume + term
    else volume) l acc == acc + qsum (map (fun v => csign v * (pos (d - cdot v coeffs) ^ Z.of_nat (S n))) l)).
  { induction l as [|v l IH]; intros acc; [cbn [fold_left map]; change (qsum []) with 0; lra|].
    cbn [fold_left map]. rewrite IH, qsum_cons. fold (cdot v coeffs).
    match goal with |- _ + ?T == _ => generalize T end. intros T. unfold csign, pos.
    destruct (Qltb_spec 0 (d - cdot v coeffs)) as [E|E].
    - destruct (Qlt_le_dec 0 (d - cdot v coeffs)) as [_|N]; [|lra].
      destruct (fold_left Z.add v 0 mod 2 =? 1)%Z; ring.
    - destruct (Qlt_le_dec 0 (d - cdot v coeffs)) as [P|_]; [lra|].
      assert (Z0 : 0 ^ Z.of_nat (S n) == 0) by (apply Qpower_0; lia). rewrite Z0. ring. }
  rewrite G. lra.
Qed.


Ltac bits n := match eval vm_compute in (corner_bits n) with ?l => change (corner_bits n) with l end.
Ltac dots := unfold cdot; cbn [combine fold_left]; unfold inject_Z; try lra.
Ltac pp t e g := setoid_replace (pos (t - e)) with (pos g) by (apply pos_comp; dots).

Lemma corner1 a t : corner_sum [a] 1 t == pos t - pos (t - a).
Proof.
  destruct (corner_sum_qsum [a] 1 t) as [E|E]; [|discriminate]. rewrite E. bits 1%nat. cbn [map].
  rewrite !qsum_cons. change (qsum []) with 0.
  pp t (cdot [0%Z] [a]) t. pp t (cdot [1%Z] [a]) (t - a).
  change (csign [0%Z]) with 1. change (csign [1%Z]) with (-1). cbn [Z.of_nat Pos.of_succ_nat Qpower Qpower_positive]. 
  change (pow_pos Qmult) with Qpower_positive. cbn. ring.
Qed.

Lemma corner2 b a t : corner_sum [b; a] 2 t == p2 t - p2 (t - a) - p2 (t - b) + p2 (t - a - b).
Proof.
  destruct (corner_sum_qsum [b; a] 2 t) as [E|E]; [|discriminate]. rewrite E. bits 2%nat. cbn [map].
  rewrite !qsum_cons. change (qsum []) with 0.
  pp t (cdot [0; 0]%Z [b; a]) t. pp t (cdot [0; 1]%Z [b; a]) (t - a). pp t (cdot [1; 0]%Z [b; a]) (t - b). pp t (cdot [1; 1]%Z [b; a]) (t - a - b).
  change (csign [0; 0]%Z) with 1. change (csign [0; 1]%Z) with (-1). change (csign [1; 0]%Z) with (-1). change (csign [1; 1]%Z) with 1.
  unfold p2. cbn [Z.of_nat Pos.of_succ_nat Pos.succ Qpower Qpower_positive pow_pos]. ring.
Qed.

Lemma corner3 c b a t : corner_sum [c; b; a] 3 t ==
  p3 t - p3 (t - a) - p3 (t - b) + p3 (t - a - b) - p3 (t - c) + p3 (t - a - c) + p3 (t - b - c) - p3 (t - a - b - c).
Proof.
  destruct (corner_sum_qsum [c; b; a] 3 t) as [E|E]; [|discriminate]. rewrite E. bits 3%nat. cbn [map].
  rewrite !qsum_cons. change (qsum []) with 0.
  pp t (cdot [0; 0; 0]%Z [c; b; a]) t. pp t (cdot [0; 0; 1]%Z [c; b; a]) (t - a). pp t (cdot [0; 1; 0]%Z [c; b; a]) (t - b). pp t (cdot [0; 1; 1]%Z [c; b; a]) (t - a - b).
  pp t (cdot [1; 0; 0]%Z [c; b; a]) (t - c). pp t (cdot [1; 0; 1]%Z [c; b; a]) (t - a - c). pp t (cdot [1; 1; 0]%Z [c; b; a]) (t - b - c). pp t (cdot [1; 1; 1]%Z [c; b; a]) (t - a - b - c).
  change (csign [0; 0; 0]%Z) with 1. change (csign [0; 0; 1]%Z) with (-1). change (csign [0; 1; 0]%Z) with (-1). change (csign [0; 1; 1]%Z) with 1.
  change (csign [1; 0; 0]%Z) with (-1). change (csign [1; 0; 1]%Z) with 1. change (csign [1; 1; 0]%Z) with 1. change (csign [1; 1; 1]%Z) with (-1).
  unfold p3. cbn [Z.of_nat Pos.of_succ_nat Pos.succ Qpower Qpower_positive pow_pos]. ring.
Qed.

Definition done (l : list Q) (d : Q) : Q :=
  match collect l d [] 0 1 with
  | None => 0
  | Some (coeffs, n, denom) => if Nat.eqb n 0 then (if Qle_bool d 0 then 1 else 0) else fin (corner_sum coeffs n d / denom)
  end.

Lemma fin_comp x y : x == y -> 0 <= x <= 1 -> fin y == round12 x.
Proof. intros E H. rewrite (fin_round y) by (rewrite <- E; exact H). symmetry. now apply round12_comp. Qed.

Lemma dot_nonneg l : Forall (fun a => 0 <= a) l -> forall x n, in_cube n x -> 0 <= dot l x.
Proof.
  induction 1 as [|a l Ha Hl IH]; intros x n [L F]; [cbn; lra|]. destruct x as [|b x]; [cbn; lra|]. cbn [dot].
  inversion F as [|? ? Hb Hx]; subst. assert (0 <= dot l x) by (apply (IH x (length x)); split; auto). nra.
Qed.

(** Either the value computed, or zero when the early return is taken. *)
Lemma early s l t v : step s -> Forall (fun a => 0 <= a) l -> t < 0 -> volg s l t v -> 0 == round12 v.
Proof.
  intros Hs Hl Ht V. assert (E : v == 0).
  { apply (volg_none s Hs l t v); [|exact V]. intros x Hx. pose proof (dot_nonneg l Hl x _ Hx). lra. }
  rewrite (round12_comp v 0 E). symmetry. apply round12_0.
Qed.

Lemma done_spec a b c t : 0 <= a -> 0 <= b -> 0 <= c -> ~ (a == 0 /\ b == 0 /\ c == 0) ->
  exists v, (forall s, step s -> volg s [a; b; c] t v) /\ done [a; b; c] t == round12 v.
Proof.
  intros Ha Hb Hc NZ.
  assert (FN : Forall (fun x => 0 <= x) [a; b; c]) by (repeat constructor; assumption).
  assert (K : exists v, (forall s, step s -> volg s [a; b; c] t v) /\
    (done [a; b; c] t == 0 /\ t < 0 \/ exists x, done [a; b; c] t = fin x /\ x == v)).
  { unfold done. cbn [collect app].
    destruct (Qeq_bool a 0) eqn:Ea; destruct (Qeq_bool b 0) eqn:Eb; destruct (Qeq_bool c 0) eqn:Ec;
    repeat match goal with
    | H : Qeq_bool _ 0 = true |- _ => apply Qeq_bool_iff in H
    | H : Qeq_bool ?u 0 = false |- _ => apply Qeq_bool_neq in H; assert (0 < u) by lra; clear H
    end.
    - exfalso. auto.
    - exists (f1 c t). split.
      + intros s Hs. apply (volg_zero s Hs [] a [b; c] Ea). apply (volg_zero s Hs [] b [c] Eb). now apply vol1.
      + destruct (Qltb_spec t 0); [left; split; [reflexivity|assumption]|]. right. eexists. split; [reflexivity|].
        rewrite corner1. unfold f1, inject_Z. cbn [Z.of_nat Pos.of_succ_nat]. field. lra.
    - exists (f1 b t). split.
      + intros s Hs. apply (volg_zero s Hs [] a [b; c] Ea). apply (volg_zero s Hs [b] c [] Ec). now apply vol1.
      + destruct (Qltb_spec t 0); [left; split; [reflexivity|assumption]|]. right. eexists. split; [reflexivity|].
        rewrite corner1. unfold f1, inject_Z. cbn [Z.of_nat Pos.of_succ_nat]. field. lra.
    - exists (f2 b c t). split.
      + intros s Hs. apply (volg_zero s Hs [] a [b; c] Ea). now apply vol2.
      + destruct (Qltb_spec t 0); [left; split; [reflexivity|assumption]|]. right. eexists. split; [reflexivity|].
        rewrite corner2. unfold f2, inject_Z. cbn [Z.of_nat Pos.of_succ_nat Pos.succ]. field. lra.
    - exists (f1 a t). split.
      + intros s Hs. apply (volg_zero s Hs [a] b [c] Eb). apply (volg_zero s Hs [a] c [] Ec). now apply vol1.
      + destruct (Qltb_spec t 0); [left; split; [reflexivity|assumption]|]. right. eexists. split; [reflexivity|].
        rewrite corner1. unfold f1, inject_Z. cbn [Z.of_nat Pos.of_succ_nat]. field. lra.
    - exists (f2 a c t). split.
      + intros s Hs. apply (volg_zero s Hs [a] b [c] Eb). now apply vol2.
      + destruct (Qltb_spec t 0); [left; split; [reflexivity|assumption]|]. right. eexists. split; [reflexivity|].
        rewrite corner2. unfold f2, inject_Z. cbn [Z.of_nat Pos.of_succ_nat Pos.succ]. field. lra.
    - exists (f2 a b t). split.
      + intros s Hs. apply (volg_zero s Hs [a; b] c [] Ec). now apply vol2.
      + destruct (Qltb_spec t 0); [left; split; [reflexivity|assumption]|]. right. eexists. split; [reflexivity|].
        rewrite corner2. unfold f2, inject_Z. cbn [Z.of_nat Pos.of_succ_nat Pos.succ]. field. lra.
    - exists (f3 a b c t). split.
      + intros s Hs. now apply vol3.
      + right. eexists. split; [reflexivity|].
        rewrite corner3. unfold f3, inject_Z. cbn [Z.of_nat Pos.of_succ_nat Pos.succ]. field. lra. }
  destruct K as (v & V & [[E L]|(x & E & X)]); exists v; (split; [exact V|]).
  - rewrite E. exact (early closed _ t v closed_step FN L (V _ closed_step)).
  - rewrite E. apply fin_comp; [now symmetry|]. exact (volg_range closed closed_step _ _ _ (V _ closed_step)).
Qed.

Lemma cube_done a b c d : exists a' b' c' t, cube_fraction (a, b, c) d = done [a'; b'; c'] t /\ 0 <= a' /\ 0 <= b' /\ 0 <= c' /\
  (a' == 0 -> a == 0) /\ (b' == 0 -> b == 0) /\ (c' == 0 -> c == 0) /\
  (forall s v, step s -> volg s [a'; b'; c'] t v -> volg s [a; b; c] (- d) v).
Proof.
  unfold cube_fraction, flip_coeffs. cbn [fold_left app].
  destruct (Qltb_spec a 0), (Qltb_spec b 0), (Qltb_spec c 0); cbn [app];
  (do 4 eexists; split; [reflexivity|]; repeat (split; [lra|]); intros s v Hs V).
  - apply (volg_flip s Hs [] a [b; c] _ (- d + - a)); [lra|]. apply (volg_flip s Hs [- a] b [c] _ (- d + - a + - b)); [lra|].
    apply (volg_flip s Hs [- a; - b] c [] _ (- d + - a + - b + - c)); [lra|exact V].
  - apply (volg_flip s Hs [] a [b; c] _ (- d + - a)); [lra|]. apply (volg_flip s Hs [- a] b [c] _ (- d + - a + - b)); [lra|exact V].
  - apply (volg_flip s Hs [] a [b; c] _ (- d + - a)); [lra|]. apply (volg_flip s Hs [- a; b] c [] _ (- d + - a + - c)); [lra|exact V].
  - apply (volg_flip s Hs [] a [b; c] _ (- d + - a)); [lra|exact V].
  - apply (volg_flip s Hs [a] b [c] _ (- d + - b)); [lra|]. apply (volg_flip s Hs [a; - b] c [] _ (- d + - b + - c)); [lra|exact V].
  - apply (volg_flip s Hs [a] b [c] _ (- d + - b)); [lra|exact V].
  - apply (volg_flip s Hs [a; b] c [] _ (- d + - c)); [lra|exact V].
  - exact V.
Qed.

Definition nonzero (v : vec) : Prop := let '(a, b, c) := v in ~ (a == 0 /\ b == 0 /\ c == 0).
Definition coeffs (v : vec) : list Q := let '(a, b, c) := v in [a; b; c].

Lemma cube_both v d : nonzero v -> exists w, (forall s, step s -> volg s (coeffs v) (- d) w) /\ cube_fraction v d == round12 w.
Proof.
  destruct v as [[a b] c]. intros NZ. destruct (cube_done a b c d) as (a' & b' & c' & t & E & Ha & Hb & Hc & Za & Zb & Zc & V).
  destruct (done_spec a' b' c' t Ha Hb Hc) as (w & W & F); [cbn in NZ; tauto|].
  exists w. split; [|now rewrite E]. intros s Hs. now apply V, W.
Qed.

Lemma cube_volume v d : nonzero v -> exists w, volume (coeffs v) (- d) w /\ cube_fraction v d == round12 w.
Proof. intros NZ. destruct (cube_both v d NZ) as (w & W & E). exists w. split; [|exact E]. apply volume_volg, W, closed_step. Qed.

Lemma cube_complement v d : nonzero v -> cube_fraction v d + cube_fraction (vopp v) (- d) == 1.
Proof.
  intros NZ. destruct (cube_both v d NZ) as (w & W & E).
  assert (NZ' : nonzero (vopp v)) by (destruct v as [[a b] c]; cbn in *; intros (A & B & C); apply NZ; repeat split; lra).
  destruct (cube_both (vopp v) (- d) NZ') as (w' & W' & E').
  pose proof (volg_compl _ _ _ (W _ open_step)) as C.
  assert (X : w' == 1 - w).
  { apply (volg_unique closed closed_step (coeffs (vopp v)) (- - d) (- - d)); [reflexivity|exact (W' _ closed_step)|].
    destruct v as [[a b] c]. exact C. }
  rewrite E, E', (round12_comp _ _ X). clear -W. unfold round12.
  assert (R : py_round ((1 - w) * inject_Z (10 ^ 12)) = (10 ^ 12 - py_round (w * inject_Z (10 ^ 12)))%Z).
  { destruct (py_round_spec (w * inject_Z (10 ^ 12))) as [H1 H2]. set (k := py_round (w * inject_Z (10 ^ 12))) in *.
    apply (nearest_even_fun ((1 - w) * inject_Z (10 ^ 12)) ((1 - w) * inject_Z (10 ^ 12))); [reflexivity|apply py_round_spec|].
    assert (D : (1 - w) * inject_Z (10 ^ 12) - inject_Z (10 ^ 12 - k) == - (w * inject_Z (10 ^ 12) - inject_Z k)).
    { rewrite <- Z.add_opp_r, inject_Z_plus, inject_Z_opp. ring. }
    split; [rewrite D; lra|]. rewrite D. intros H. rewrite Z.even_sub. rewrite H2 by lra. reflexivity. }
  rewrite R, <- Z.add_opp_r, inject_Z_plus, inject_Z_opp. field. discriminate.
Qed.

Lemma cube_monotone v d d' : nonzero v -> d <= d' -> cube_fraction v d' <= cube_fraction v d.
Proof.
  intros NZ H. destruct (cube_both v d NZ) as (w & W & E). destruct (cube_both v d' NZ) as (w' & W' & E').
  rewrite E, E'. apply round12_mono. apply (volg_mono closed closed_step (coeffs v) (- d') (- d)); [lra|apply W', closed_step|apply W, closed_step].
Qed.

Lemma cube_range v d : 0 <= cube_fraction v d <= 1.
Proof.
  assert (C : forall x, 0 <= clamp01 x <= 1).
  { intros x. unfold clamp01, qmin, qmax. destruct (Qltb_spec 0 x); [destruct (Qltb_spec 1 x)|destruct (Qltb_spec 1 0)]; lra. }
  destruct v as [[a b] c]. unfold cube_fraction. destruct (flip_coeffs _ _) as [l t]. destruct (collect _ _ _ _ _) as [[[cs n] dn]|]; [|lra].
  destruct (Nat.eqb n 0); [destruct (Qle_bool t 0); lra|apply C].
Qed.
