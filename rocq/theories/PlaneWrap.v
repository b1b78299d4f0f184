(** Proofs about the planes kept for the unit cell and the planes on the surface of a cell. *)
From Coq Require Import QArith Qabs Lqa Lia.
From Verif Require Import Base RootsModel UnionModel UnionProofs ChargeModel CoordModel NearModel NearSpec NearProofs WeightModel RefineModel PlaneModel PlaneSpec PlaneInt PlaneVol PlaneProofs.
Local Open Scope Z_scope.

Definition z3_dec (a b : Z * Z * Z) : {a = b} + {a <> b}.
Proof. decide equality; [apply Z.eq_dec|decide equality; apply Z.eq_dec]. Defined.

Lemma transformations_all : NoDup transformations /\ length transformations = 27%nat /\ nth_error transformations 0 = Some (0, 0, 0) /\
  forall i j k, In (i, j, k) transformations <-> -1 <= i <= 1 /\ -1 <= j <= 1 /\ -1 <= k <= 1.
Proof.
  split; [|split; [|split]]; try reflexivity.
  - assert (E : nodup z3_dec transformations = transformations) by (vm_compute; reflexivity).
    rewrite <- E. apply NoDup_nodup.
  - intros i j k. split.
    + intros H. assert (F : forallb (fun '(i, j, k) => (-1 <=? i) && (i <=? 1) && (-1 <=? j) && (j <=? 1) && (-1 <=? k) && (k <=? 1)) transformations = true) by (vm_compute; reflexivity).
      rewrite forallb_forall in F. specialize (F _ H). cbn beta iota in F. rewrite !andb_true_iff, !Z.leb_le in F. lia.
    + intros (A & B & C).
      assert (Hi : i = -1 \/ i = 0 \/ i = 1) by lia. assert (Hj : j = -1 \/ j = 0 \/ j = 1) by lia. assert (Hk : k = -1 \/ k = 0 \/ k = 1) by lia.
      clear A B C. unfold transformations. cbn [flat_map app Z.eqb andb Pos.eqb].
      destruct Hi as [->|[->| ->]], Hj as [->|[->| ->]], Hk as [->|[->| ->]]; cbn [In]; auto 40.
Qed.

Lemma in_pairs planes p i t : In (p, (i, t)) (all_pairs planes) <-> In p planes /\ nth_error transformations i = Some t.
Proof.
  unfold all_pairs. rewrite in_prod_iff. apply and_iff_compat_l. split.
  - intros H. change 27%nat with (length transformations) in H.
    apply (In_nth _ _ (0%nat, (0, 0, 0))) in H. destruct H as (n & L & H).
    rewrite combine_length, seq_length, Nat.min_id in L.
    rewrite combine_nth in H by (rewrite seq_length; reflexivity). rewrite seq_nth in H by exact L.
    pose proof (f_equal fst H) as H1. pose proof (f_equal snd H) as H2. clear H. cbn [fst snd plus] in H1, H2. subst i.
    rewrite <- H2. now apply nth_error_nth_lt.
  - intros H. assert (L : (i < length transformations)%nat) by (apply nth_error_Some; congruence).
    change 27%nat with (length transformations).
    assert (E : nth i (combine (seq 0 (length transformations)) transformations) (0%nat, (0, 0, 0)) = (i, t)).
    { rewrite combine_nth by (rewrite seq_length; reflexivity). rewrite seq_nth by exact L. f_equal. now apply nth_error_nth. }
    rewrite <- E. apply nth_In. rewrite combine_length, seq_length, Nat.min_id. exact L.
Qed.

Lemma mark_spec order : forall flags,
  (forall p i t, In (p, (i, t)) order -> (pl_site p * 27 + i < length flags)%nat) ->
  exists out, mark_trans order flags = Done out /\ length out = length flags /\
    forall k, (k < length flags)%nat -> (nth k out false = true <-> nth k flags false = true \/
      exists p i t, In (p, (i, t)) order /\ k = (pl_site p * 27 + i)%nat /\ (moved_volume p t == 0)%Q).
Proof.
  induction order as [|[p [i t]] rest IH]; intros flags B.
  - exists flags. repeat split; auto. intros [H0|(? & ? & ? & [] & _)]. exact H0.
  - cbn [mark_trans]. assert (Bp : (pl_site p * 27 + i < length flags)%nat) by (apply (B p i t); now left).
    destruct (Qeq_bool (moved_volume p t) 0) eqn:E.
    + apply Qeq_bool_iff in E. unfold set_flag. apply Nat.ltb_lt in Bp. rewrite Bp. cbn [obind]. apply Nat.ltb_lt in Bp.
      destruct (IH (upd flags (pl_site p * 27 + i) true)) as (out & M & L & S).
      { intros q j u Hq. rewrite upd_length. apply (B q j u). now right. }
      exists out. rewrite upd_length in *. repeat split; auto; intros H0.
      * apply S in H0; [|exact H]. rewrite nth_upd in H0. destruct H0 as [H0|(q & j & u & Hq & Ek & Ev)].
        -- destruct (Nat.eqb_spec (pl_site p * 27 + i) k) as [Ek|Nk]; cbn [andb] in H0; [|now left].
           right. exists p, i, t. split; [now left|]. auto.
        -- right. exists q, j, u. split; [now right|auto].
      * apply S; [exact H|]. rewrite nth_upd. destruct H0 as [H0|(q & j & u & [Hq|Hq] & Ek & Ev)].
        -- left. destruct (_ && _); auto.
        -- injection Hq as <- <- <-. left. rewrite Ek, Nat.eqb_refl. apply Nat.ltb_lt in Bp. rewrite Bp. reflexivity.
        -- right. exists q, j, u. auto.
    + destruct (IH flags) as (out & M & L & S); [intros q j u Hq; apply (B q j u); now right|].
      exists out. repeat split; auto; intros H0.
      * apply S in H0; [|exact H]. destruct H0 as [H0|(q & j & u & Hq & R)]; [now left|right; exists q, j, u; split; [now right|exact R]].
      * apply S; [exact H|]. destruct H0 as [H0|(q & j & u & [Hq|Hq] & Ek & Ev)]; [now left| |right; exists q, j, u; auto].
        injection Hq as <- <- <-. apply Qeq_bool_neq in E. contradiction.
Qed.

Lemma wrapped_spec order planes : Permutation order (all_pairs planes) ->
  (forall p, In p planes -> (pl_site p < length (nodup Nat.eq_dec (map pl_site planes)))%nat) ->
  exists out, cell_wrapped order planes = Done out /\
    forall w, In w out <-> exists p i t, In p planes /\ nth_error transformations i = Some t /\
      w = Wrapped (pl_site p) i (vshift (pl_point p) t) (vround12 (pl_vector p)) (moved_volume p t) /\
      ~ (moved_volume p t == 1)%Q /\ (forall q, In q planes -> pl_site q = pl_site p -> ~ (moved_volume q t == 0)%Q).
Proof.
  intros P B. unfold cell_wrapped. set (ns := length (nodup Nat.eq_dec (map pl_site planes))) in *.
  assert (LT : forall i t, nth_error transformations i = Some t -> (i < 27)%nat).
  { intros i t H. change 27%nat with (length transformations). apply nth_error_Some. congruence. }
  assert (IO : forall p i t, In (p, (i, t)) order <-> In p planes /\ nth_error transformations i = Some t).
  { intros p i t. rewrite <- in_pairs. split; apply Permutation_in; [exact P|now symmetry]. }
  assert (BI : forall p i t, In p planes -> nth_error transformations i = Some t -> (pl_site p * 27 + i < ns * 27)%nat).
  { intros p i t Hp Hi. apply LT in Hi. pose proof (B p Hp). lia. }
  destruct (mark_spec order (repeat false (ns * 27))) as (flags & M & L & S).
  { intros p i t H. apply IO in H. rewrite repeat_length. destruct H. eauto. }
  rewrite repeat_length in *. rewrite M. cbn [obind]. eexists. split; [reflexivity|]. intros w. rewrite in_map_iff. split.
  - intros ([p [i t]] & <- & H). apply filter_In in H. destruct H as [H K]. apply in_pairs in H. destruct H as [Hp Hi].
    apply negb_true_iff, orb_false_iff in K. destruct K as [K1 K2].
    exists p, i, t. repeat split; auto; [now apply Qeq_bool_neq|]. intros q Hq Es Z.
    assert (F : nth (pl_site p * 27 + i) flags false = true) by (apply S; [eauto|]; right; exists q, i, t; rewrite IO; auto).
    congruence.
  - intros (p & i & t & Hp & Hi & -> & N1 & N0). exists (p, (i, t)). split; [reflexivity|]. apply filter_In. split; [now apply in_pairs|].
    apply negb_true_iff, orb_false_iff. split.
    + destruct (Qeq_bool (moved_volume p t) 1) eqn:E; [apply Qeq_bool_iff in E; contradiction|reflexivity].
    + destruct (nth (pl_site p * 27 + i) flags false) eqn:E; [|reflexivity]. exfalso.
      apply S in E; [|eauto]. destruct E as [E|(q & j & u & Hq & Ek & Ev)].
      * rewrite nth_repeat in E. discriminate.
      * apply IO in Hq. destruct Hq as [Hq Hj]. pose proof (LT _ _ Hi). pose proof (LT _ _ Hj).
        assert (pl_site q = pl_site p) by lia. assert (j = i) by lia. subst j. rewrite Hi in Hj. injection Hj as <-.
        exact (N0 q Hq ltac:(assumption) Ev).
Qed.

Lemma moved_spec p t : nonzero (vround12 (pl_vector p)) ->
  exists w, volume (coeffs (vround12 (pl_vector p))) (vdot (vround12 (pl_vector p)) (vshift (pl_point p) t)) w /\
    (Qabs (moved_volume p t - w) <= 1 # 2000000000000)%Q.
Proof.
  intros NZ. unfold moved_volume. set (v := vround12 (pl_vector p)) in *.
  destruct (cube_volume v (vdot (vopp v) (vshift (pl_point p) t)) NZ) as (w & V & E). exists w. split.
  - apply volume_volg. apply volume_volg in V. revert V. apply volg_comp; [apply closed_step| |reflexivity].
    destruct v as [[a b] c], (vshift (pl_point p) t) as [[x y] z]. cbn. ring.
  - rewrite E. unfold round12. destruct (py_round_spec (w * inject_Z (10 ^ 12))) as [[A B] _].
    set (k := inject_Z (py_round (w * inject_Z (10 ^ 12)))) in *.
    assert (T : (k / inject_Z (10 ^ 12) * inject_Z (10 ^ 12) == k)%Q) by (field; discriminate).
    change (inject_Z (10 ^ 12)) with (1000000000000 # 1)%Q in *. apply Qabs_Qle_condition. lra.
Qed.

(** Planes with three vertices. *)
Lemma on_surface_spec e tol vs : forall n, (n < 3)%nat ->
  on_surface e tol vs n = Nat.leb 3 (n + length (filter (fun '(x, y, z) => let '(a, b, c, d) := e in negb (Qltb tol (qabs (x * a + y * b + z * c + d)%Q))) vs)).
Proof.
  destruct e as [[[a b] c] d]. induction vs as [|[[x y] z] vs IH]; intros n Hn.
  - cbn [on_surface filter length]. symmetry. apply Nat.leb_gt. lia.
  - cbn [on_surface filter]. destruct (Qltb tol _) eqn:E; cbn [negb length]; [now apply IH|].
    destruct (Nat.eqb_spec (S n) 3) as [E3|N3].
    + symmetry. apply Nat.leb_le. lia.
    + rewrite IH by lia. f_equal. lia.
Qed.
