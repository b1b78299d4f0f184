From Verif Require Import Base GridModel GridProofs NeighModel RootsModel RootsSpec RootsProofs
  UnionModel UnionSpec UnionProofs ShiftModel ShiftSpec ShiftProofs ChargeModel CycleModel CycleSpec CycleForest.
From Coq Require Import ZifyBool ZifyNat.

Lemma m_inv_ext R (P Q : nat -> Prop) n f : (forall x, P x <-> Q x) -> m_inv R P n f -> m_inv R Q n f.
Proof.
  intros E [M1 M0 M2]. split.
  - intros a b s H. apply M1 in H. now rewrite <- !E.
  - intros x H. apply M0. now apply E.
  - intros i. rewrite M2. split; intros (Hr & x & Hx & C); (split; [exact Hr|]); exists x; (split; [now apply E|exact C]).
Qed.

Definition mentions (R : list (nat * nat * offset)) (x : nat) : Prop :=
  exists y s, In (x, y, s) R \/ In (y, x, s) R.

Lemma mentions_app R S x : mentions (R ++ S) x <-> mentions R x \/ mentions S x.
Proof.
  unfold mentions. split.
  - intros (y & s & [H|H]); apply in_app_or in H as [H|H]; eauto 6.
  - intros [(y & s & H)|(y & s & H)]; exists y, s; rewrite !in_app_iff; tauto.
Qed.

Section Grid.
Context (nx ny nz : Z) (fuel : nat) (neighbors : list offset).
Hypothesis Hx : 2 <= nx.
Hypothesis Hy : 2 <= ny.
Hypothesis Hz : 2 <= nz.
Hypothesis US : unit_steps neighbors.

Definition fn (v : voxel3) : nat := Z.to_nat (flat3 ny nz v).
Definition num : nat := Z.to_nat (nx * ny * nz).

Lemma fn_flat v : in_grid nx ny nz v -> Z.of_nat (fn v) = flat3 ny nz v /\ (fn v < num)%nat.
Proof.
  destruct v as [[i j] k]. intros G. unfold fn, num, flat3.
  pose proof (coords_flat_range i j k nx ny nz G) as R. split; [now apply Z2Nat.id|]. apply Z2Nat.inj_lt; lia.
Qed.

Lemma fn_inj v w : in_grid nx ny nz v -> in_grid nx ny nz w -> fn v = fn w -> v = w.
Proof.
  intros G H E. destruct (fn_flat v G) as [E1 _], (fn_flat w H) as [E2 _].
  destruct v as [[i j] k], w as [[i' j'] k']. unfold flat3 in *.
  rewrite <- (flat_coords_inverse i j k nx ny nz G), <- (flat_coords_inverse i' j' k' nx ny nz H). congruence.
Qed.

Lemma wrap1_facts i d n : 2 <= n -> 0 <= i < n -> -1 <= d <= 1 ->
  let '(j, s) := wrap1_shift (i + d) n in
  0 <= j < n /\ -1 <= s <= 1 /\ (d <> 0 -> j <> i) /\ wrap1_shift (j + - d) n = (i, - s).
Proof.
  intros Hn Hi Hd. unfold wrap1_shift.
  destruct (n <=? i + d) eqn:E1; [|destruct (i + d <? 0) eqn:E2].
  - repeat split; try lia. destruct (n <=? i + d - n + - d) eqn:E3; [lia|]. destruct (i + d - n + - d <? 0) eqn:E4; [|lia]. f_equal; lia.
  - repeat split; try lia. destruct (n <=? i + d + n + - d) eqn:E3; [|lia]. f_equal; lia.
  - repeat split; try lia. destruct (n <=? i + d + - d) eqn:E3; [lia|]. destruct (i + d + - d <? 0) eqn:E4; [lia|]. f_equal; lia.
Qed.

Lemma neigh3_facts v d : in_grid nx ny nz v -> In d neighbors ->
  let '(w, s) := neigh3 nx ny nz v d in
  in_grid nx ny nz w /\ w <> v /\ within 1 s /\ In (oneg d) neighbors /\ neigh3 nx ny nz w (oneg d) = (v, oneg s).
Proof.
  destruct v as [[i j] k], d as [[a b] c]. intros (Gi & Gj & Gk) Hd.
  destruct (US a b c Hd) as (N & A & B & C & Hn). unfold neigh3, wrap_point_w_shift.
  pose proof (wrap1_facts i a nx Hx Gi A) as Fi. pose proof (wrap1_facts j b ny Hy Gj B) as Fj. pose proof (wrap1_facts k c nz Hz Gk C) as Fk.
  destruct (wrap1_shift (i + a) nx) as [i' si], (wrap1_shift (j + b) ny) as [j' sj], (wrap1_shift (k + c) nz) as [k' sk].
  destruct Fi as (Fi1 & Fi2 & Fi3 & Fi4), Fj as (Fj1 & Fj2 & Fj3 & Fj4), Fk as (Fk1 & Fk2 & Fk3 & Fk4).
  cbn [oneg]. rewrite Fi4, Fj4, Fk4. repeat split; auto; try lia.
  intros [= -> -> ->]. apply N. destruct (Z.eq_dec a 0) as [->|X]; [|now apply Fi3 in X].
  destruct (Z.eq_dec b 0) as [->|X]; [|now apply Fj3 in X]. destruct (Z.eq_dec c 0) as [->|X]; [|now apply Fk3 in X]. reflexivity.
Qed.

(** Edges of one voxel. *)
Definition edges_of (solid : voxel3 -> bool) (v : voxel3) (ds : list offset) : list (nat * nat * offset) :=
  flat_map (fun d => let '(w, s) := neigh3 nx ny nz v d in if solid w then [(fn v, fn w, s)] else []) ds.

Definition edges_over (src solid : voxel3 -> bool) (vs : list voxel3) : list (nat * nat * offset) :=
  flat_map (fun v => if src v then edges_of solid v neighbors else []) vs.

Lemma grid_edges_over src solid : grid_edges nx ny nz neighbors src solid = edges_over src solid (voxels nx ny nz).
Proof. reflexivity. Qed.

Lemma in_edges_of solid v ds a b s : In (a, b, s) (edges_of solid v ds) <->
  exists d w, In d ds /\ neigh3 nx ny nz v d = (w, s) /\ solid w = true /\ a = fn v /\ b = fn w.
Proof.
  unfold edges_of. rewrite in_flat_map. split.
  - intros (d & Hd & H). destruct (neigh3 nx ny nz v d) as [w s'] eqn:E. destruct (solid w) eqn:S; [|destruct H].
    destruct H as [[= <- <- <-]|[]]. exists d, w. auto.
  - intros (d & w & Hd & E & S & -> & ->). exists d. split; [exact Hd|]. rewrite E, S. now left.
Qed.

Lemma in_edges_over src solid vs a b s : In (a, b, s) (edges_over src solid vs) <->
  exists v d w, In v vs /\ src v = true /\ In d neighbors /\ neigh3 nx ny nz v d = (w, s) /\ solid w = true /\ a = fn v /\ b = fn w.
Proof.
  unfold edges_over. rewrite in_flat_map. split.
  - intros (v & Hv & H). destruct (src v) eqn:S; [|destruct H]. apply in_edges_of in H as (d & w & H). exists v, d, w. tauto.
  - intros (v & d & w & Hv & S & H). exists v. split; [exact Hv|]. rewrite S. apply in_edges_of. exists d, w. tauto.
Qed.

Hypothesis Hfuel : (num <= fuel)%nat.

Lemma group_neigh_loop solid v : in_grid nx ny nz v -> forall ds, incl ds neighbors -> forall R A seen f found,
  s_inv R A num f -> m_inv R seen num f ->
  exists f' A', oloop (group_neigh nx ny nz fuel solid v) ds (found, f) =
      Done (found || negb (match edges_of (at3 solid) v ds with [] => true | _ => false end), f') /\
    s_inv (R ++ edges_of (at3 solid) v ds) A' num f' /\ incl A A' /\
    m_inv (R ++ edges_of (at3 solid) v ds) (fun x => seen x \/ mentions (edges_of (at3 solid) v ds) x) num f'.
Proof.
  intros Gv. induction ds as [|d ds IH]; intros Hi R A seen f found I M.
  - exists f, A. cbn [oloop edges_of flat_map]. rewrite app_nil_r, orb_false_r. split; [reflexivity|]. split; [exact I|]. split; [apply incl_refl|].
    eapply m_inv_ext; [|exact M]. intros x. split; [tauto|]. intros [H|(y & s & [[]|[]])]. exact H.
  - cbn [oloop]. unfold group_neigh at 1.
    assert (Hd : In d neighbors) by (apply Hi; now left).
    assert (Hi' : incl ds neighbors) by (intros z Hz'; apply Hi; now right).
    pose proof (neigh3_facts v d Gv Hd) as NF.
    unfold edges_of. cbn [flat_map]. fold (edges_of (at3 solid) v ds).
    destruct (neigh3 nx ny nz v d) as [w s] eqn:E. destruct NF as (Gw & Nw & _).
    destruct (at3 solid w) eqn:SW; cbn [negb].
    + destruct (fn_flat v Gv) as [Fv Lv], (fn_flat w Gw) as [Fw Lw]. rewrite <- Fv, <- Fw.
      assert (NE : fn v <> fn w) by (intros Q; apply Nw; symmetry; now apply fn_inj).
      destruct (m_inv_union fuel R A seen num f (fn v) (fn w) s I M Hfuel Lv Lw NE) as (f1 & A1 & U & I1 & AA & M1).
      cbn [snd]. rewrite U. cbn [obind].
      destruct (IH Hi' _ _ _ _ true I1 M1) as (f2 & A2 & O2 & I2 & AA2 & M2).
      exists f2, A2. cbn [app]. split; [|split; [|split]].
      * rewrite O2. cbn [orb negb]. rewrite orb_true_r. reflexivity.
      * rewrite <- app_assoc in I2. exact I2.
      * now apply (incl_tran AA).
      * rewrite <- app_assoc in M2. eapply m_inv_ext; [|exact M2]. intros x. cbn [app].
        change ((fn v, fn w, s) :: edges_of (at3 solid) v ds) with ([(fn v, fn w, s)] ++ edges_of (at3 solid) v ds).
        rewrite mentions_app. split.
        -- intros [[H|[->| ->]]|H]; [tauto| | |tauto].
           ++ right. left. exists (fn w), s. left. now left.
           ++ right. left. exists (fn v), s. right. now left.
        -- intros [H|[(y & t & [[[= <- <- <-]|[]]|[[= <- <- <-]|[]]])|H]]; tauto.
    + cbn [obind app]. apply IH; auto.
Qed.

Lemma np_set_nat' {A} (l : list A) (i : nat) x : (i < length l)%nat -> np_set l (Z.of_nat i) x = Some (upd l i x).
Proof. apply np_set_nat. Qed.

Lemma unmentioned_alone R x y : ~ mentions R x -> connected (pr R) x y -> x = y.
Proof.
  intros N C. destruct (connected_mentioned _ _ _ C) as [E|[(z & s & H) _]]; [exact E|]. exfalso. apply N. exists z, s. exact H.
Qed.

Lemma isolated_root R A n f x : s_inv R A n f -> (x < n)%nat -> ~ mentions R x -> is_root f x.
Proof.
  intros I L N. pose proof I as [I1 I2 I3 I4 (G & AC & BD & CC) I6 I7 I8 I9].
  destruct (good_active_reaches _ x G (AC x ltac:(lia))) as (r & X).
  pose proof (reaches_root _ _ _ X) as Xr.
  assert (Lr : (r < length (f_par f))%nat) by (apply nth_error_Some; congruence).
  assert (C : connected (pr R) x r). { apply I7, CC; [lia|lia|]. exists r. split; [exact X|now constructor]. }
  apply unmentioned_alone in C; [|exact N]. subst r. exact Xr.
Qed.

Lemma group_voxel_step solid prev vac v R A seen f : in_grid nx ny nz v ->
  s_inv R A num f -> m_inv R seen num f ->
  (is_new solid prev vac v = true -> edges_of (at3 solid) v neighbors = [] -> ~ mentions R (fn v)) ->
  let E := if is_new solid prev vac v then edges_of (at3 solid) v neighbors else [] in
  exists f' A', group_voxel nx ny nz fuel neighbors solid prev vac f v = Done f' /\
    s_inv (R ++ E) A' num f' /\ incl A A' /\
    m_inv (R ++ E) (fun x => seen x \/ mentions E x \/ (is_new solid prev vac v = true /\ x = fn v)) num f'.
Proof.
  intros Gv I M NM E. unfold group_voxel, E. destruct (is_new solid prev vac v) eqn:NW; cbn [negb].
  2:{ exists f, A. rewrite app_nil_r. split; [reflexivity|]. split; [exact I|]. split; [apply incl_refl|].
      eapply m_inv_ext; [|exact M]. intros x. split; [tauto|]. intros [H|[(y & s & [[]|[]])|[H _]]]; [exact H|discriminate]. }
  destruct (group_neigh_loop solid v Gv neighbors (incl_refl _) R A seen f false I M) as (f1 & A1 & O1 & I1 & AA & M1).
  rewrite O1. cbn [obind orb].
  destruct (edges_of (at3 solid) v neighbors) as [|e es] eqn:EE; cbn [negb].
  - destruct (fn_flat v Gv) as [Fv Lv]. rewrite <- Fv. rewrite app_nil_r in *.
    pose proof I1 as [J1 J2 J3 J4 J5 J6 J7 J8 J9].
    rewrite np_set_nat' by lia. cbn [oget obind].
    specialize (NM eq_refl eq_refl). pose proof (isolated_root R A1 num f1 (fn v) I1 Lv NM) as RV.
    exists (with_mask f1 (upd (f_mask f1) (fn v) true)), A1. split; [reflexivity|].
    assert (MK : forall i, nth i (upd (f_mask f1) (fn v) true) false = if Nat.eqb (fn v) i then true else nth i (f_mask f1) false).
    { intros i. rewrite nth_upd. replace (Nat.ltb (fn v) (length (f_mask f1))) with true by lia. now rewrite andb_true_r. }
    split; [|split; [exact AA|]].
    + split; cbn [with_mask f_par f_off f_size f_mask]; auto; [now rewrite upd_length|].
      intros i. rewrite MK. destruct (Nat.eqb_spec (fn v) i) as [<-|]; [intros _; exact RV|apply J9].
    + destruct M1 as [M1 M0 M2]. split.
      * intros a b s H. apply M1 in H. intuition.
      * intros x [H|[(y & s & [[]|[]])|[_ ->]]]; [apply M0; now left|exact Lv].
      * intros i. cbn [with_mask f_mask]. unfold is_root. cbn [f_par]. rewrite MK. destruct (Nat.eqb_spec (fn v) i) as [<-|NI].
        -- split; [intros _|reflexivity]. split; [exact RV|]. exists (fn v). split; [auto|constructor].
        -- rewrite M2. unfold is_root. split; intros (Hr & x & Hx' & C); (split; [exact Hr|]).
           ++ exists x. split; [tauto|exact C].
           ++ exists x. split; [|exact C]. destruct Hx' as [H|[H|[_ ->]]]; [tauto|tauto|].
              apply unmentioned_alone in C; [contradiction|exact NM].
  - exists f1, A1. split; [reflexivity|]. split; [exact I1|]. split; [exact AA|].
    eapply m_inv_ext; [|exact M1]. intros x. split; [tauto|]. intros [H|[H|[_ ->]]]; [tauto|tauto|].
    right. destruct e as [[a b] s]. assert (H : In (a, b, s) (edges_of (at3 solid) v neighbors)) by (rewrite EE; now left).
    apply in_edges_of in H as (d & w & _ & _ & _ & -> & _). exists b, s. left. now left.
Qed.

Lemma group_loop solid prev vac vs : Forall (in_grid nx ny nz) vs -> forall R A seen f,
  s_inv R A num f -> m_inv R seen num f ->
  (forall u, in_grid nx ny nz u -> is_new solid prev vac u = true -> edges_of (at3 solid) u neighbors = [] -> ~ mentions R (fn u)) ->
  let E := edges_over (is_new solid prev vac) (at3 solid) vs in
  exists f' A', oloop (group_voxel nx ny nz fuel neighbors solid prev vac) vs f = Done f' /\
    s_inv (R ++ E) A' num f' /\ incl A A' /\
    m_inv (R ++ E) (fun x => seen x \/ mentions E x \/ exists v, In v vs /\ is_new solid prev vac v = true /\ x = fn v) num f'.
Proof.
  induction vs as [|v vs IH]; intros F R A seen f I M NM E.
  - exists f, A. unfold E. cbn [edges_over flat_map oloop]. rewrite app_nil_r. split; [reflexivity|]. split; [exact I|]. split; [apply incl_refl|].
    eapply m_inv_ext; [|exact M]. intros x. split; [tauto|]. intros [H|[(y & s & [[]|[]])|(v & [] & _)]]. exact H.
  - inversion F as [|? ? Gv F']; subst.
    destruct (group_voxel_step solid prev vac v R A seen f Gv I M (NM v Gv)) as (f1 & A1 & O1 & I1 & AA & M1).
    set (Ev := if is_new solid prev vac v then edges_of (at3 solid) v neighbors else []) in *.
    assert (NM1 : forall u, in_grid nx ny nz u -> is_new solid prev vac u = true -> edges_of (at3 solid) u neighbors = [] -> ~ mentions (R ++ Ev) (fn u)).
    { intros u Gu NU EU. rewrite mentions_app. intros [H|(y & s & H)]; [exact (NM u Gu NU EU H)|].
      unfold Ev in H. destruct (is_new solid prev vac v) eqn:NV; [|destruct H as [[]|[]]].
      rewrite !in_edges_of in H.
      assert (K : exists e, In e (edges_of (at3 solid) u neighbors)); [|destruct K as (e & K); rewrite EU in K; exact K].
      destruct H as [(d & w & Hd & EN & SW & Q & _)|(d & w & Hd & EN & SW & _ & Q)].
      - apply fn_inj in Q; [|exact Gu|exact Gv]. subst u. exists (fn v, fn w, s). apply in_edges_of. exists d, w. auto.
      - pose proof (neigh3_facts v d Gv Hd) as NF. rewrite EN in NF. destruct NF as (Gw & _ & _ & Hd' & EN').
        apply fn_inj in Q; [|exact Gu|exact Gw]. subst u. exists (fn w, fn v, oneg s). apply in_edges_of. exists (oneg d), v.
        split; [exact Hd'|]. split; [exact EN'|]. split; [|auto].
        unfold is_new in NV. destruct (at3 solid v); [reflexivity|discriminate]. }
    destruct (IH F' _ _ _ _ I1 M1 NM1) as (f2 & A2 & O2 & I2 & AA2 & M2).
    exists f2, A2. cbn [oloop]. rewrite O1. cbn [obind]. split; [exact O2|]. unfold E. cbn [edges_over flat_map]. fold Ev. fold (edges_over (is_new solid prev vac) (at3 solid) vs).
    rewrite app_assoc. split; [exact I2|]. split; [now apply (incl_tran AA)|].
    eapply m_inv_ext; [|exact M2]. intros x. rewrite mentions_app. split.
    + intros [[H|[H|[H ->]]]|[H|(u & Hu & H)]]; [tauto|tauto| |tauto|].
      * right. right. exists v. split; [now left|]. now split.
      * right. right. exists u. split; [now right|exact H].
    + intros [H|[[H|H]|(u & [<-|Hu] & H)]]; [tauto|tauto|tauto|tauto|].
      right. right. exists u. now split.
Qed.
End Grid.
