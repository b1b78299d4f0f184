From Verif Require Import Base GridModel NeighModel RootsModel RootsSpec RootsProofs
  UnionModel UnionSpec UnionProofs ShiftModel ShiftSpec.
From Coq Require Import ZifyBool ZifyNat.

(** ** offset arithmetic *)
Lemma off_eq (a b c a' b' c' : Z) : a = a' -> b = b' -> c = c' -> (a, b, c) = (a', b', c').
Proof. now intros -> -> ->. Qed.

Ltac ooff := unfold osub, oneg, oadd;
  repeat match goal with o : offset |- _ => destruct o as [[? ?] ?]
                       | o : (Z * Z * Z)%type |- _ => destruct o as [[? ?] ?] end;
  cbn beta iota; apply off_eq; ring.

Lemma oadd_0_l a : oadd (0, 0, 0) a = a. Proof. ooff. Qed.
Lemma oadd_0_r a : oadd a (0, 0, 0) = a. Proof. ooff. Qed.
Lemma oadd_assoc a b c : oadd (oadd a b) c = oadd a (oadd b c). Proof. ooff. Qed.
Lemma oadd_comm a b : oadd a b = oadd b a. Proof. ooff. Qed.
Lemma osub_diag a : osub a a = (0, 0, 0). Proof. ooff. Qed.
Lemma osub_shift a b c : osub (oadd a c) (oadd b c) = osub a b. Proof. ooff. Qed.
Lemma oneg_osub a b : oneg (osub a b) = osub b a. Proof. ooff. Qed.
Lemma osub_trans a b c : oadd (osub a b) (osub b c) = osub a c. Proof. ooff. Qed.

(** ** Root and accumulated offset *)
Inductive rpos (p : list Z) (o : list offset) : nat -> nat -> offset -> Prop :=
| rpos_root x : nth_error p x = Some (Z.of_nat x) -> rpos p o x x (0, 0, 0)
| rpos_up x j r s c : nth_error p x = Some (Z.of_nat j) -> x <> j -> nth_error o x = Some s ->
    rpos p o j r c -> rpos p o x r (oadd s c).

Lemma rpos_reaches p o x r c : rpos p o x r c -> reaches p x r.
Proof. induction 1; [now constructor|eapply reaches_step; eauto]. Qed.

Lemma rpos_fun p o x r1 c1 : rpos p o x r1 c1 -> forall r2 c2, rpos p o x r2 c2 -> r1 = r2 /\ c1 = c2.
Proof.
  induction 1 as [x E|x j r s c E N So R IH]; intros r2 c2 H2; inversion H2 as [y E'|y j' r' s' c' E' N' So' R']; subst.
  - auto.
  - exfalso. apply N'. eapply ptr_inj; eauto.
  - exfalso. apply N. symmetry. eapply ptr_inj; eauto.
  - assert (j = j') by (eapply ptr_inj; eauto). subst j'. destruct (IH _ _ R') as [-> ->]. split; congruence.
Qed.

Lemma reaches_rpos p o x r : length o = length p -> good_pointers p -> reaches p x r -> exists c, rpos p o x r c.
Proof.
  intros L G R. destruct (reaches_climb _ _ _ R) as (k & C). clear R.
  induction C as [x E|k x j r E N C (c & IH)].
  - exists (0, 0, 0). now constructor.
  - assert (x < length p)%nat by (apply nth_error_Some; congruence).
    exists (oadd (nth x o (0, 0, 0)) c). econstructor; eauto. apply nth_error_nth_lt. lia.
Qed.

(** [same_forest_o]: same roots and same accumulated offsets. *)
Definition same_forest_o (p : list Z) (o : list offset) (q : list Z) (o' : list offset) : Prop :=
  same_forest p q /\ length o' = length o /\ forall x r c, rpos p o x r c -> rpos q o' x r c.

Lemma same_forest_o_refl p o : same_forest_o p o p o.
Proof. split; [apply same_forest_refl|]. auto. Qed.

Lemma same_forest_o_trans p o q o1 r o2 :
  same_forest_o p o q o1 -> same_forest_o q o1 r o2 -> same_forest_o p o r o2.
Proof.
  intros (A & B & C) (A' & B' & C'). split; [eapply same_forest_trans; eauto|]. split; [congruence|]. auto.
Qed.

Lemma halve_spec fuel : forall p o x r k, length o = length p -> good_pointers p -> climb p k x r -> (k < fuel)%nat ->
  exists p' o', halve fuel p o (Z.of_nat x) = Done (p', o') /\ same_forest_o p o p' o' /\ good_pointers p'.
Proof.
  induction fuel as [|fuel IH]; intros p o x r k L G C Hf; [lia|]. cbn [halve].
  pose proof (lt_active p x (reaches_active _ _ _ (climb_reaches _ _ _ _ C))) as Hx.
  inversion C as [i E|k' i j r' E N C']; subst.
  - rewrite np_get_nat by exact Hx. rewrite E. cbn [oget obind]. rewrite Z.eqb_refl.
    exists p, o. split; [reflexivity|]. split; [apply same_forest_o_refl|exact G].
  - rewrite np_get_nat by exact Hx. rewrite E. cbn [oget obind].
    replace (Z.of_nat j =? Z.of_nat x) with false by lia.
    pose proof (lt_active p j (reaches_active _ _ _ (climb_reaches _ _ _ _ C'))) as Hj.
    rewrite np_get_nat by exact Hj.
    destruct (good_ptr p j G (reaches_active _ _ _ (climb_reaches _ _ _ _ C'))) as (a & Ea).
    rewrite Ea. cbn [oget obind].
    destruct (Z.eqb_spec (Z.of_nat a) (Z.of_nat j)) as [EQ|NE].
    { exists p, o. split; [reflexivity|]. split; [apply same_forest_o_refl|exact G]. }
    assert (NEa : a <> j) by lia.
    rewrite (np_get_nat o x) by lia. rewrite (np_get_nat o j) by lia.
    rewrite (nth_error_nth_lt o x (0, 0, 0)), (nth_error_nth_lt o j (0, 0, 0)) by lia. cbn [oget obind].
    rewrite (np_set_nat o x) by lia. cbn [oget obind]. rewrite np_set_nat by exact Hx. cbn [oget obind].
    rewrite np_get_nat by now rewrite upd_length.
    rewrite nth_error_upd, Nat.eqb_refl. replace (Nat.ltb x (length p)) with true by lia. cbn [andb oget obind].
    set (sx := nth x o (0, 0, 0)). set (sj := nth j o (0, 0, 0)).
    inversion C' as [i' E'|k'' i' j' r'' E' N' C'']; subst.
    { exfalso. apply NEa. eapply ptr_inj; eauto. }
    assert (a = j') by (eapply ptr_inj; eauto). subst j'.
    assert (CL : forall m, (m <= k'')%nat -> ~ exists s, climb p m x s).
    { intros m Hm (s' & C0). destruct (climb_fun _ _ _ _ C _ _ C0). lia. }
    destruct (redirect p x a r G (climb_reaches _ _ _ _ C)) as [SF G'].
    { intros E''. apply N. eapply ptr_inj; eauto. }
    { eapply climb_reaches; eauto. }
    { exists (S (S k'')), k''. repeat split; auto. }
    assert (CA : climb (upd p x (Z.of_nat a)) k'' a r) by now apply climb_upd.
    destruct (IH (upd p x (Z.of_nat a)) (upd o x (oadd sx sj)) a r k'') as (p' & o' & F & SF' & G''); auto; [now rewrite !upd_length|lia|].
    exists p', o'. split; [exact F|]. split; [|exact G''].
    eapply same_forest_o_trans; [|exact SF']. split; [exact SF|]. split; [now rewrite upd_length|].
    (* offsets are preserved by the redirection *)
    assert (NX : x <> a). { intros ->. apply (CL k'' (Nat.le_refl _)). eauto. }
    assert (PX : nth_error (upd p x (Z.of_nat a)) x = Some (Z.of_nat a)).
    { rewrite nth_error_upd, Nat.eqb_refl. replace (Nat.ltb x (length p)) with true by lia. reflexivity. }
    assert (PO : forall y, y <> x -> nth_error (upd p x (Z.of_nat a)) y = nth_error p y).
    { intros y Hy. rewrite nth_error_upd. replace (Nat.eqb x y) with false by lia. reflexivity. }
    assert (OX : nth_error (upd o x (oadd sx sj)) x = Some (oadd sx sj)).
    { rewrite nth_error_upd, Nat.eqb_refl. replace (Nat.ltb x (length o)) with true by lia. reflexivity. }
    assert (OO : forall y, y <> x -> nth_error (upd o x (oadd sx sj)) y = nth_error o y).
    { intros y Hy. rewrite nth_error_upd. replace (Nat.eqb x y) with false by lia. reflexivity. }
    intros y ry cy R. induction R as [y Ey|y jy ry sy cy Ey Ny Sy R IHR].
    + apply rpos_root. rewrite PO; [exact Ey|]. intros ->. apply N. eapply ptr_inj; eauto.
    + destruct (Nat.eq_dec y x) as [->|Nyx].
      * assert (jy = j) by (eapply ptr_inj; eauto). subst jy.
        inversion IHR as [z Ez|z jz rz sz cz Ez Nz Sz Rz]; subst.
        -- exfalso. rewrite PO in Ez by auto. apply NEa. exact (ptr_inj _ _ _ _ Ea Ez).
        -- assert (jz = a). { rewrite PO in Ez by auto. eapply ptr_inj; eauto. } subst jz.
           rewrite OO in Sz by auto. assert (sz = sj) by (symmetry; now apply nth_error_nth). subst sz.
           assert (sy = sx) by (symmetry; now apply nth_error_nth). subst sy.
           rewrite <- oadd_assoc. eapply rpos_up; eauto.
      * eapply rpos_up; [rewrite PO; eauto|exact Ny|rewrite OO; eauto|exact IHR].
Qed.

Lemma climb_off_spec fuel : forall p o x r k c acc, climb p k x r -> rpos p o x r c -> (k < fuel)%nat ->
  length o = length p ->
  climb_off fuel p o (Z.of_nat x) acc = Done (Z.of_nat r, oadd acc c).
Proof.
  induction fuel as [|fuel IH]; intros p o x r k c acc C R Hf L; [lia|]. cbn [climb_off].
  pose proof (lt_active p x (reaches_active _ _ _ (climb_reaches _ _ _ _ C))) as Hx.
  rewrite np_get_nat by exact Hx.
  inversion C as [i E|k' i j r' E N C']; subst; rewrite E; cbn [oget obind].
  - rewrite Z.eqb_refl. destruct (rpos_fun _ _ _ _ _ R _ _ (rpos_root p o r E)) as [_ ->]. now rewrite oadd_0_r.
  - replace (Z.of_nat j =? Z.of_nat x) with false by lia.
    inversion R as [y E'|y j' r'' s' c' E' N' So' R']; subst.
    { exfalso. apply N. eapply ptr_inj; eauto. }
    assert (j = j') by (eapply ptr_inj; eauto). subst j'.
    rewrite np_get_nat by lia. rewrite So'. cbn [oget obind].
    rewrite (IH p o j r k' c' (oadd acc s') C' R' ltac:(lia) L). now rewrite oadd_assoc.
Qed.

Lemma find_shift_correct fuel p o x : length o = length p -> good_pointers p -> active p x -> (length p <= fuel)%nat ->
  exists r c p' o', rpos p o x r c /\
    find_root_with_shift fuel p o (Z.of_nat x) = Done (p', o', Z.of_nat r, c) /\
    find_root_with_shift_nc fuel p o (Z.of_nat x) = Done (Z.of_nat r, c) /\
    same_forest_o p o p' o' /\ good_pointers p'.
Proof.
  intros L G A Hf. destruct (good_active_reaches p x G A) as (r & R).
  destruct (reaches_rpos p o x r L G R) as (c & RP).
  destruct (reaches_climb p x r R) as (k & C). pose proof (climb_lt_length _ _ _ _ C) as LT.
  destruct (halve_spec fuel p o x r k L G C ltac:(lia)) as (p' & o' & F & SF & G').
  exists r, c, p', o'. split; [exact RP|]. split; [|split; [|split; [exact SF|exact G']]].
  - unfold find_root_with_shift. rewrite F. cbn [obind].
    destruct SF as ((L1 & D1 & R1) & LO & RP').
    assert (R' : reaches p' x r) by now apply R1.
    destruct (reaches_climb p' x r R') as (k' & C'). pose proof (climb_lt_length _ _ _ _ C').
    rewrite (climb_off_spec fuel p' o' x r k' c (0, 0, 0) C' (RP' _ _ _ RP)) by lia.
    cbn [obind]. now rewrite oadd_0_l.
  - unfold find_root_with_shift_nc. rewrite (climb_off_spec fuel p o x r k c (0, 0, 0) C RP) by lia.
    now rewrite oadd_0_l.
Qed.

(** ** link *)
Lemma link_rpos p o rx ry s : length o = length p -> good_pointers p ->
  nth_error p rx = Some (Z.of_nat rx) -> nth_error p ry = Some (Z.of_nat ry) -> rx <> ry ->
  forall i t c, rpos p o i t c ->
  rpos (upd p rx (Z.of_nat ry)) (upd o rx s) i (if Nat.eqb t rx then ry else t) (if Nat.eqb t rx then oadd c s else c).
Proof.
  intros L G Hx Hy N i t c R.
  assert (Lx : (rx < length p)%nat) by (apply nth_error_Some; congruence).
  assert (Ly : (ry < length p)%nat) by (apply nth_error_Some; congruence).
  assert (PX : nth_error (upd p rx (Z.of_nat ry)) rx = Some (Z.of_nat ry)).
  { rewrite nth_error_upd, Nat.eqb_refl. replace (Nat.ltb rx (length p)) with true by lia. reflexivity. }
  assert (PO : forall y, y <> rx -> nth_error (upd p rx (Z.of_nat ry)) y = nth_error p y).
  { intros y Hy'. rewrite nth_error_upd. replace (Nat.eqb rx y) with false by lia. reflexivity. }
  assert (OX : nth_error (upd o rx s) rx = Some s).
  { rewrite nth_error_upd, Nat.eqb_refl. replace (Nat.ltb rx (length o)) with true by lia. reflexivity. }
  assert (OO : forall y, y <> rx -> nth_error (upd o rx s) y = nth_error o y).
  { intros y Hy'. rewrite nth_error_upd. replace (Nat.eqb rx y) with false by lia. reflexivity. }
  induction R as [i E|i j t si c E Ni So R IH].
  - destruct (Nat.eqb_spec i rx) as [->|Nx].
    + rewrite oadd_0_l. replace (rpos (upd p rx (Z.of_nat ry)) (upd o rx s) rx ry s) with (rpos (upd p rx (Z.of_nat ry)) (upd o rx s) rx ry (oadd s (0, 0, 0))) by now rewrite oadd_0_r.
      eapply rpos_up; [exact PX|exact N|exact OX|]. apply rpos_root. now rewrite PO by auto.
    + apply rpos_root. now rewrite PO.
  - destruct (Nat.eq_dec i rx) as [->|Nx]; [exfalso; apply Ni; eapply ptr_inj; eauto|].
    assert (K : rpos (upd p rx (Z.of_nat ry)) (upd o rx s) i (if Nat.eqb t rx then ry else t)
                 (oadd si (if Nat.eqb t rx then oadd c s else c))).
    { eapply rpos_up; [rewrite PO; eauto|exact Ni|rewrite OO; eauto|exact IH]. }
    destruct (Nat.eqb t rx); [rewrite oadd_assoc|]; exact K.
Qed.

(** ** Histories *)
Definition pr (A : list (nat * nat * offset)) : list (nat * nat) := map fst A.

Record s_inv (R A : list (nat * nat * offset)) (n : nat) (f : sforest) : Prop := {
  si_n : length (f_par f) = n;
  si_off : length (f_off f) = n;
  si_size : length (f_size f) = n;
  si_mask : length (f_mask f) = n;
  si_uf : uf_inv (pr A) (f_par f);
  si_incl : incl A R;
  si_conn : forall x y, connected (pr A) x y <-> connected (pr R) x y;
  si_edge : forall a b s, In (a, b, s) A -> exists r ca cb,
      rpos (f_par f) (f_off f) a r ca /\ rpos (f_par f) (f_off f) b r cb /\ s = osub ca cb;
  si_roots : forall i, nth i (f_mask f) false = true -> nth_error (f_par f) i = Some (Z.of_nat i)
}.

Lemma set_mask_spec m i b : (i < length m)%nat ->
  exists m', set_mask m (Z.of_nat i) b = Done m' /\ length m' = length m /\
  forall j, nth j m' false = if Nat.eqb j i then b else nth j m false.
Proof.
  intros H. unfold set_mask. rewrite np_get_nat by exact H. rewrite (nth_error_nth_lt m i false) by exact H.
  cbn [oget obind]. destruct (Bool.eqb (nth i m false) b) eqn:E.
  - exists m. split; [reflexivity|]. split; [reflexivity|]. intros j. destruct (Nat.eqb_spec j i) as [->|]; [|reflexivity].
    now apply eqb_prop.
  - rewrite np_set_nat by exact H. cbn [oget]. exists (upd m i b). split; [reflexivity|]. split; [apply upd_length|].
    intros j. rewrite nth_upd. replace (Nat.ltb i (length m)) with true by lia. rewrite andb_true_r, Nat.eqb_sym. reflexivity.
Qed.

Lemma connected_add_known E x y : connected E x y -> forall u v, connected (E ++ [(x, y)]) u v <-> connected E u v.
Proof.
  intros H u v. split.
  - induction 1 as [z|u v Hi|u v Hi IH|u v w H1 IH1 H2 IH2]; eauto using connected.
    apply in_app_or in Hi as [Hi|[[= <- <-]|[]]]; [now apply conn_edge|exact H].
  - apply connected_mono. intros z Hz. apply in_or_app. now left.
Qed.

Lemma connected_equiv_app E F x y : (forall u v, connected E u v <-> connected F u v) ->
  forall u v, connected (E ++ [(x, y)]) u v <-> connected (F ++ [(x, y)]) u v.
Proof.
  assert (G : forall E F, (forall u v, connected E u v -> connected F u v) ->
     forall u v, connected (E ++ [(x, y)]) u v -> connected (F ++ [(x, y)]) u v).
  { intros E0 F0 H u v C. induction C as [z|u v Hi|u v Hi IH|u v w H1 IH1 H2 IH2]; eauto using connected.
    apply in_app_or in Hi as [Hi|[[= <- <-]|[]]].
    - eapply connected_mono; [|apply H, conn_edge; exact Hi]. intros z Hz. apply in_or_app. now left.
    - apply conn_edge, in_or_app. right. now left. }
  intros H u v. split; apply G; intros; now apply H.
Qed.

Lemma pr_app A x y s : pr (A ++ [(x, y, s)]) = pr A ++ [(x, y)].
Proof. unfold pr. now rewrite map_app. Qed.

Lemma s_inv_find R A n f q o : s_inv R A n f -> same_forest_o (f_par f) (f_off f) q o -> good_pointers q ->
  s_inv R A n {| f_par := q; f_off := o; f_size := f_size f; f_mask := f_mask f |}.
Proof.
  intros [I1 I2 I3 I4 I5 I6 I7 I8 I9] ((L & D & RR) & LO & RP) G.
  split; cbn [f_par f_off f_size f_mask]; auto; try congruence.
  - eapply uf_inv_forest; [exact I5|split; [exact L|split; eauto]|exact G].
  - intros a b s Hi. destruct (I8 a b s Hi) as (r & ca & cb & Ra & Rb & E). exists r, ca, cb. auto.
  - intros i Hi. specialize (I9 i Hi).
    assert (HR : reaches q i i) by (apply RR; now constructor). now apply reaches_root in HR.
Qed.

Lemma s_inv_union fuel R A n f a b s : s_inv R A n f -> (n <= fuel)%nat -> (a < n)%nat -> (b < n)%nat ->
  exists f' A', union_with_shift fuel f (Z.of_nat a) (Z.of_nat b) s = Done f' /\
    s_inv (R ++ [(a, b, s)]) A' n f' /\
    ((A' = A /\ connected (pr R) a b) \/ (A' = A ++ [(a, b, s)] /\ ~ connected (pr R) a b)) /\
    (forall i j r ci cj, rpos (f_par f) (f_off f) i r ci -> rpos (f_par f) (f_off f) j r cj ->
       exists r' ci' cj', rpos (f_par f') (f_off f') i r' ci' /\ rpos (f_par f') (f_off f') j r' cj' /\
         osub ci' cj' = osub ci cj).
Proof.
  intros I Hf Ha Hb. pose proof I as [I1 I2 I3 I4 (G & AC & BD & CC) I6 I7 I8 I9].
  destruct (find_shift_correct fuel (f_par f) (f_off f) a ltac:(congruence) G (AC a ltac:(lia)) ltac:(lia))
    as (ra & ca & p1 & o1 & Ra & F1 & _ & SF1 & G1).
  pose proof SF1 as ((L1 & D1 & R1) & LO1 & RP1).
  assert (A1 : active p1 b) by (eapply same_forest_active; [split; [exact L1|split; eauto]|apply AC; lia]).
  destruct (find_shift_correct fuel p1 o1 b ltac:(congruence) G1 A1 ltac:(lia))
    as (rb & cb & p2 & o2 & Rb & F2 & _ & SF2 & G2).
  pose proof (same_forest_o_trans _ _ _ _ _ _ SF1 SF2) as SF.
  pose proof (s_inv_find R A n f p2 o2 I SF G2) as I'.
  assert (Ra2 : rpos p2 o2 a ra ca) by (apply SF; exact Ra).
  assert (Rb2 : rpos p2 o2 b rb cb) by (apply SF2; exact Rb).
  unfold union_with_shift. rewrite F1. cbn [obind]. rewrite F2. cbn [obind].
  assert (Rb0 : reaches (f_par f) b rb) by (apply R1; eapply rpos_reaches; exact Rb).
  assert (Ra0 : reaches (f_par f) a ra) by (eapply rpos_reaches; exact Ra).
  destruct (Z.eqb_spec (Z.of_nat ra) (Z.of_nat rb)) as [E|N].
  - assert (ra = rb) by lia. subst rb.
    assert (CN : connected (pr R) a b).
    { apply I7. apply CC; [lia|lia|]. exists ra. auto. }
    eexists. exists A. split; [reflexivity|]. split; [|split].
    + destruct I' as [J1 J2 J3 J4 J5 J6 J7 J8 J9]. split; auto.
      * intros z Hz. apply in_or_app. left. now apply J6.
      * intros x y. rewrite J7, pr_app. symmetry. now apply connected_add_known.
    + now left.
    + cbn [f_par f_off]. intros i j r ci cj Ri Rj. exists r, ci, cj. split; [now apply SF|]. split; [now apply SF|reflexivity].
  - assert (NE : ra <> rb) by lia.
    assert (NC : ~ connected (pr R) a b).
    { intros C. apply I7 in C. apply CC in C; [|lia|lia]. destruct C as (r & X & Y).
      apply NE. rewrite (reaches_fun _ _ _ Ra0 _ X). symmetry. eapply reaches_fun; eauto. }
    pose proof (reaches_root _ _ _ (rpos_reaches _ _ _ _ _ Ra2)) as Hra.
    pose proof (reaches_root _ _ _ (rpos_reaches _ _ _ _ _ Rb2)) as Hrb.
    destruct SF as ((L & D & RR) & LO & RP).
    assert (La : (ra < n)%nat) by (rewrite <- I1, <- L; apply nth_error_Some; congruence).
    assert (Lb : (rb < n)%nat) by (rewrite <- I1, <- L; apply nth_error_Some; congruence).
    rewrite (np_get_nat (f_size f) ra), (np_get_nat (f_size f) rb) by lia.
    rewrite (nth_error_nth_lt (f_size f) ra 0), (nth_error_nth_lt (f_size f) rb 0) by lia. cbn [oget obind].
    (* common part: attaching root u under root v with offset w *)
    assert (KEY : forall u v w m, u <> v -> ((u = ra /\ v = rb /\ w = osub (oadd s cb) ca) \/ (u = rb /\ v = ra /\ w = oneg (osub (oadd s cb) ca))) ->
       length m = n -> (forall j, nth j m false = if Nat.eqb j u then false else if Nat.eqb j v then true else nth j (f_mask f) false) ->
       forall sz, length sz = n ->
       let f' := {| f_par := upd p2 u (Z.of_nat v); f_off := upd o2 u w; f_size := sz; f_mask := m |} in
       s_inv (R ++ [(a, b, s)]) (A ++ [(a, b, s)]) n f' /\
       (forall i j r ci cj, rpos (f_par f) (f_off f) i r ci -> rpos (f_par f) (f_off f) j r cj ->
         exists r' ci' cj', rpos (f_par f') (f_off f') i r' ci' /\ rpos (f_par f') (f_off f') j r' cj' /\
         osub ci' cj' = osub ci cj)).
    { intros u v w m NUV UV Lm Hm sz Lsz f'.
      assert (Hu : nth_error p2 u = Some (Z.of_nat u)) by (destruct UV as [(-> & -> & _)|(-> & -> & _)]; auto).
      assert (Hv : nth_error p2 v = Some (Z.of_nat v)) by (destruct UV as [(-> & -> & _)|(-> & -> & _)]; auto).
      assert (Lp2 : length p2 = n) by congruence. assert (Lo2 : length o2 = n) by congruence.
      pose proof (link_rpos p2 o2 u v w ltac:(congruence) G2 Hu Hv NUV) as LK.
      destruct (link_spec p2 u v G2 Hu Hv) as (G3 & L3 & D3 & R3).
      split.
      - destruct I' as [J1 J2 J3 J4 J5 J6 J7 J8 J9]. cbn [f_par f_off f_size f_mask] in *.
        split; cbn [f_par f_off f_size f_mask f']; auto.
        + now rewrite upd_length.
        + now rewrite upd_length.
        + rewrite pr_app.
          assert (AA : forall i, active (upd p2 u (Z.of_nat v)) i <-> active p2 i).
          { intros i. split; intros (z & Hz & Nz).
            - assert (Hi : (i < length p2)%nat) by (rewrite <- L3; apply nth_error_Some; congruence).
              exists (nth i p2 (-1)). pose proof (nth_error_nth_lt p2 i (-1) Hi) as X. split; [exact X|].
              intros Y. rewrite Y in X. apply D3 in X. congruence.
            - assert (Hi : (i < length (upd p2 u (Z.of_nat v)))%nat) by (rewrite L3; apply nth_error_Some; congruence).
              exists (nth i (upd p2 u (Z.of_nat v)) (-1)). pose proof (nth_error_nth_lt _ i (-1) Hi) as X. split; [exact X|].
              intros Y. rewrite Y in X. apply D3 in X. congruence. }
          destruct UV as [(-> & -> & _)|(-> & -> & _)].
          * eapply (uf_inv_union (pr A) p2 _ a b ra rb); eauto; try lia; eapply rpos_reaches; eauto.
          * assert (IV : uf_inv (pr A ++ [(b, a)]) (upd p2 rb (Z.of_nat ra))).
            { eapply (uf_inv_union (pr A) p2 _ b a rb ra); eauto; try lia; eapply rpos_reaches; eauto. }
            destruct IV as (V1 & V2 & V3 & V4). split; [exact V1|]. split; [exact V2|]. split.
            { intros x y H. apply in_app_or in H as [H|[[= <- <-]|[]]].
              - apply V3, in_or_app. now left.
              - destruct (V3 b a) as [X Y]; [apply in_or_app; right; now left|]. auto. }
            intros i j Hi Hj. rewrite (V4 i j Hi Hj). clear.
            split; intros C; (induction C as [z|x y Hi|x y Hi IH|x y w0 H1 IH1 H2 IH2]; eauto using connected;
              apply in_app_or in Hi as [Hi|[[= <- <-]|[]]];
              [apply conn_edge, in_or_app; now left|apply conn_sym, conn_edge, in_or_app; right; now left]).
        + intros z Hz. apply in_app_or in Hz as [Hz|Hz]; apply in_or_app; [left; now apply J6|now right].
        + intros x y. rewrite !pr_app. now apply connected_equiv_app.
        + intros a0 b0 s0 Hin. apply in_app_or in Hin as [Hin|[[= <- <- <-]|[]]].
          * destruct (J8 a0 b0 s0 Hin) as (r & c1 & c2 & X & Y & Z).
            pose proof (LK _ _ _ X) as X'. pose proof (LK _ _ _ Y) as Y'.
            eexists _, _, _. split; [exact X'|]. split; [exact Y'|]. rewrite Z.
            destruct (Nat.eqb r u); [now rewrite osub_shift|reflexivity].
          * pose proof (LK _ _ _ Ra2) as X'. pose proof (LK _ _ _ Rb2) as Y'.
            destruct UV as [(-> & -> & ->)|(-> & -> & ->)].
            -- rewrite Nat.eqb_refl in X'. replace (Nat.eqb rb ra) with false in Y' by lia.
               exists rb. eexists _, _. split; [exact X'|]. split; [exact Y'|]. clear. ooff.
            -- rewrite Nat.eqb_refl in Y'. replace (Nat.eqb ra rb) with false in X' by lia.
               exists ra. eexists _, _. split; [exact X'|]. split; [exact Y'|]. clear. ooff.
        + intros i Hi. rewrite Hm in Hi. rewrite nth_error_upd.
          destruct (Nat.eqb_spec i u) as [Eiu|Niu]; [discriminate|]. replace (Nat.eqb u i) with false by lia. cbn [andb].
          destruct (Nat.eqb_spec i v) as [Eiv|Niv]; [rewrite Eiv; exact Hv|]. now apply J9.
      - intros i j r ci cj Ri Rj. apply RP in Ri, Rj. apply LK in Ri, Rj. cbn [f_par f_off f'].
        eexists _, _, _. split; [exact Ri|]. split; [exact Rj|]. destruct (Nat.eqb r u); [now rewrite osub_shift|reflexivity]. }
    destruct (nth ra (f_size f) 0 <? nth rb (f_size f) 0).
    + rewrite (np_set_nat p2 ra) by lia. cbn [oget obind]. rewrite (np_set_nat o2 ra) by lia. cbn [oget obind].
      rewrite (np_set_nat (f_size f) rb) by lia. cbn [oget obind].
      destruct (set_mask_spec (f_mask f) rb true ltac:(lia)) as (m1 & E1 & Lm1 & M1). rewrite E1. cbn [obind].
      destruct (set_mask_spec m1 ra false ltac:(lia)) as (m2 & E2 & Lm2 & M2). rewrite E2. cbn [obind].
      destruct (KEY ra rb (osub (oadd s cb) ca) m2 NE (or_introl (conj eq_refl (conj eq_refl eq_refl))) ltac:(lia)) with
        (sz := upd (f_size f) rb (nth rb (f_size f) 0 + nth ra (f_size f) 0)) as [K1 K2].
      { intros j. rewrite M2, M1. reflexivity. }
      { now rewrite upd_length. }
      eexists. exists (A ++ [(a, b, s)]). split; [reflexivity|]. split; [exact K1|]. split; [now right|exact K2].
    + rewrite (np_set_nat p2 rb) by lia. cbn [oget obind]. rewrite (np_set_nat o2 rb) by lia. cbn [oget obind].
      rewrite (np_set_nat (f_size f) ra) by lia. cbn [oget obind].
      destruct (set_mask_spec (f_mask f) ra true ltac:(lia)) as (m1 & E1 & Lm1 & M1). rewrite E1. cbn [obind].
      destruct (set_mask_spec m1 rb false ltac:(lia)) as (m2 & E2 & Lm2 & M2). rewrite E2. cbn [obind].
      destruct (KEY rb ra (oneg (osub (oadd s cb) ca)) m2 (fun e => NE (eq_sym e)) (or_intror (conj eq_refl (conj eq_refl eq_refl))) ltac:(lia)) with
        (sz := upd (f_size f) ra (nth ra (f_size f) 0 + nth rb (f_size f) 0)) as [K1 K2].
      { intros j. rewrite M2, M1. reflexivity. }
      { now rewrite upd_length. }
      eexists. exists (A ++ [(a, b, s)]). split; [reflexivity|]. split; [exact K1|]. split; [now right|exact K2].
Qed.

Lemma run_shift_inv fuel n ops : forall R A f, s_inv R A n f -> (n <= fuel)%nat -> Forall (s_below n) ops ->
  exists f' A', run_shift fuel ops f = Done f' /\ s_inv (R ++ requests ops) A' n f'.
Proof.
  induction ops as [|[a b s|x] t IH]; intros R A f I Hf HB; cbn [run_shift requests].
  - exists f, A. rewrite app_nil_r. auto.
  - inversion HB as [|? ? HX HB']; subst. destruct HX as [Ha Hb].
    destruct (s_inv_union fuel R A n f a b s I Hf Ha Hb) as (f' & A' & E & I' & _ & _). rewrite E. cbn [obind].
    destruct (IH (R ++ [(a, b, s)]) A' f' I' Hf HB') as (f2 & A2 & E2 & I2).
    exists f2, A2. rewrite <- app_assoc in I2. auto.
  - inversion HB as [|? ? Hx HB']; subst. cbn [s_below] in Hx. pose proof I as [I1 I2 I3 I4 (G & AC & BD & CC) I6 I7 I8 I9].
    destruct (find_shift_correct fuel (f_par f) (f_off f) x ltac:(congruence) G (AC x ltac:(lia)) ltac:(lia))
      as (r & c & p1 & o1 & Rx & F & _ & SF & G1). rewrite F. cbn [obind].
    apply (IH R A); auto. now apply s_inv_find.
Qed.

Lemma nth_repeat_false n i : nth i (repeat false n) false = false.
Proof. revert i. induction n as [|n IH]; intros [|i]; simpl; auto. Qed.

Lemma shift_init_inv n : s_inv [] [] n (shift_init n).
Proof.
  split; cbn [shift_init f_par f_off f_size f_mask]; rewrite ?repeat_length; try reflexivity.
  - apply identity_length.
  - apply identity_inv.
  - intros z [].
  - intros a b s [].
  - intros i Hi. rewrite nth_repeat_false in Hi. discriminate.
Qed.

Lemma connected_linked A x y : connected (pr A) x y -> exists s, linked A x y s.
Proof.
  induction 1 as [x|x y H|x y H (s & IH)|x y z H1 (s & IH1) H2 (t & IH2)].
  - exists (0, 0, 0). constructor.
  - unfold pr in H. apply in_map_iff in H as ([[a b] s] & E & Hi). cbn in E. injection E as -> ->. exists s. now apply linked_edge.
  - exists (oneg s). now apply linked_sym.
  - exists (oadd s t). eapply linked_trans; eauto.
Qed.

Lemma linked_connected A x y s : linked A x y s -> connected (pr A) x y.
Proof.
  induction 1 as [x|x y s H|x y s H IH|x y z s t H1 IH1 H2 IH2]; eauto using connected.
  apply conn_edge. unfold pr. apply in_map_iff. exists (x, y, s). auto.
Qed.

Lemma linked_pos pos A x y s : consistent pos A -> linked A x y s -> s = osub (pos y) (pos x).
Proof.
  intros C. induction 1 as [x|x y s H|x y s H IH|x y z s t H1 IH1 H2 IH2].
  - symmetry. apply osub_diag.
  - now apply C.
  - rewrite IH. apply oneg_osub.
  - rewrite IH1, IH2, oadd_comm. apply osub_trans.
Qed.

Theorem shift_history n ops fuel : (n <= fuel)%nat -> Forall (s_below n) ops ->
  exists f A, run_shift fuel ops (shift_init n) = Done f /\
    incl A (requests ops) /\
    (forall x y, connected (map fst A) x y <-> connected (map fst (requests ops)) x y) /\
    forall i j, (i < n)%nat -> (j < n)%nat -> exists ri ci rj cj,
      find_root_with_shift_nc fuel (f_par f) (f_off f) (Z.of_nat i) = Done (Z.of_nat ri, ci) /\
      find_root_with_shift_nc fuel (f_par f) (f_off f) (Z.of_nat j) = Done (Z.of_nat rj, cj) /\
      (exists p' o', find_root_with_shift fuel (f_par f) (f_off f) (Z.of_nat i) = Done (p', o', Z.of_nat ri, ci)) /\
      (ri = rj <-> connected (map fst (requests ops)) i j) /\
      (forall s, linked A i j s -> osub ci cj = s) /\
      (forall pos, consistent pos (requests ops) -> ri = rj -> osub ci cj = osub (pos j) (pos i)).
Proof.
  intros Hf HB. destruct (run_shift_inv fuel n ops [] [] _ (shift_init_inv n) Hf HB) as (f & A & E & I).
  cbn [app] in I. pose proof I as [I1 I2 I3 I4 (G & AC & BD & CC) I6 I7 I8 I9].
  exists f, A. split; [exact E|]. split; [exact I6|]. split; [exact I7|]. intros i j Hi Hj.
  destruct (find_shift_correct fuel (f_par f) (f_off f) i ltac:(congruence) G (AC i ltac:(lia)) ltac:(lia))
    as (ri & ci & p1 & o1 & Ri & F1 & N1 & _).
  destruct (find_shift_correct fuel (f_par f) (f_off f) j ltac:(congruence) G (AC j ltac:(lia)) ltac:(lia))
    as (rj & cj & p2 & o2 & Rj & F2 & N2 & _).
  assert (LK : forall x y s, linked A x y s -> (x < n)%nat -> forall rx cx ry cy, rpos (f_par f) (f_off f) x rx cx ->
     rpos (f_par f) (f_off f) y ry cy -> (y < n)%nat /\ osub cx cy = s).
  { intros x y s H. induction H as [x|x y s H|x y s H IH|x y z s t H1 IH1 H2 IH2]; intros Hx rx cx ry cy X Y.
    - destruct (rpos_fun _ _ _ _ _ X _ _ Y) as [-> ->]. split; [exact Hx|apply osub_diag].
    - destruct (I8 x y s H) as (r & ca & cb & Ra & Rb & ->).
      destruct (rpos_fun _ _ _ _ _ X _ _ Ra) as [-> ->]. destruct (rpos_fun _ _ _ _ _ Y _ _ Rb) as [-> ->].
      split; [|reflexivity]. apply rpos_reaches, reaches_active, lt_active in Y. lia.
    - assert (HX : (x < n)%nat).
      { apply rpos_reaches, reaches_active, lt_active in Y. lia. }
      split; [exact HX|]. destruct (IH HX _ _ _ _ Y X) as [_ <-]. symmetry. apply oneg_osub.
    - assert (Hz : (z < n)%nat).
      { apply rpos_reaches in Y. apply reaches_active in Y. apply lt_active in Y. lia. }
      split; [exact Hz|].
      assert (Hy : (y < n)%nat).
      { destruct (Nat.lt_ge_cases y n) as [L|L]; [exact L|].
        exfalso. assert (OUT : forall u v w, linked A u v w -> u = v \/ ((u < n)%nat /\ (v < n)%nat)).
        { intros u v w K. induction K as [u|u v w K|u v w K IHK|u v w1 s1 t1 K1 IHK1 K2 IHK2].
          - now left.
          - right. assert (In (u, v) (pr A)) by (unfold pr; apply in_map_iff; exists (u, v, w); auto).
            apply BD in H. lia.
          - intuition.
          - intuition (subst; auto). }
        destruct (OUT _ _ _ H1) as [->|]; lia. }
      destruct (good_active_reaches _ y G (AC y ltac:(lia))) as (ry' & Ry').
      destruct (reaches_rpos _ (f_off f) y _ (eq_trans I2 (eq_sym I1)) G Ry') as (cy' & RY).
      destruct (IH1 Hx _ _ _ _ X RY) as [_ <-]. destruct (IH2 Hy _ _ _ _ RY Y) as [_ <-].
      symmetry. apply osub_trans. }
  exists ri, ci, rj, cj. split; [exact N1|]. split; [exact N2|]. split; [eauto|]. split; [|split].
  - rewrite <- (I7 i j). rewrite <- (CC i j) by lia. split.
    + intros <-. exists ri. split; eapply rpos_reaches; eauto.
    + intros (r & X & Y). rewrite (reaches_fun _ _ _ (rpos_reaches _ _ _ _ _ Ri) _ X).
      symmetry. eapply reaches_fun; [eapply rpos_reaches; exact Rj|exact Y].
  - intros s H. exact (proj2 (LK i j s H Hi _ _ _ _ Ri Rj)).
  - intros pos C ER. subst rj.
    assert (CN : connected (pr A) i j).
    { apply CC; [lia|lia|]. exists ri. split; eapply rpos_reaches; eauto. }
    destruct (connected_linked A i j CN) as (s & H).
    rewrite (proj2 (LK i j s H Hi _ _ _ _ Ri Rj)). apply (linked_pos pos A); [|exact H].
    intros a b s0 Hin. apply C. now apply I6.
Qed.

(** A single shifted union never changes the relative offset of connected elements. *)
Theorem shift_union_keeps fuel n R A f a b s : s_inv R A n f -> (n <= fuel)%nat -> (a < n)%nat -> (b < n)%nat ->
  exists f', union_with_shift fuel f (Z.of_nat a) (Z.of_nat b) s = Done f' /\
    (forall i j r ci cj, rpos (f_par f) (f_off f) i r ci -> rpos (f_par f) (f_off f) j r cj ->
       exists r' ci' cj', rpos (f_par f') (f_off f') i r' ci' /\ rpos (f_par f') (f_off f') j r' cj' /\
         osub ci' cj' = osub ci cj).
Proof.
  intros I Hf Ha Hb. destruct (s_inv_union fuel R A n f a b s I Hf Ha Hb) as (f' & A' & E & _ & _ & K). eauto.
Qed.

Theorem shift_union_step n ops fuel a b s : (n <= fuel)%nat -> Forall (s_below n) ops ->
  (a < n)%nat -> (b < n)%nat ->
  exists f f', run_shift fuel ops (shift_init n) = Done f /\
    union_with_shift fuel f (Z.of_nat a) (Z.of_nat b) s = Done f' /\
    (forall i j r ci cj,
       find_root_with_shift_nc fuel (f_par f) (f_off f) (Z.of_nat i) = Done (r, ci) ->
       find_root_with_shift_nc fuel (f_par f) (f_off f) (Z.of_nat j) = Done (r, cj) ->
       (i < n)%nat -> (j < n)%nat ->
       exists r' ci' cj',
         find_root_with_shift_nc fuel (f_par f') (f_off f') (Z.of_nat i) = Done (r', ci') /\
         find_root_with_shift_nc fuel (f_par f') (f_off f') (Z.of_nat j) = Done (r', cj') /\
         osub ci' cj' = osub ci cj) /\
    (~ connected (map fst (requests ops)) a b -> exists r' ca cb,
         find_root_with_shift_nc fuel (f_par f') (f_off f') (Z.of_nat a) = Done (r', ca) /\
         find_root_with_shift_nc fuel (f_par f') (f_off f') (Z.of_nat b) = Done (r', cb) /\
         osub ca cb = s).
Proof.
  intros Hf HB Ha Hb. destruct (run_shift_inv fuel n ops [] [] _ (shift_init_inv n) Hf HB) as (f & A & E & I).
  cbn [app] in I. destruct (s_inv_union fuel _ A n f a b s I Hf Ha Hb) as (f' & A' & E' & I' & AC & K).
  exists f, f'. split; [exact E|]. split; [exact E'|].
  assert (FN : forall g R B, s_inv R B n g -> forall i, (i < n)%nat -> exists r c, rpos (f_par g) (f_off g) i r c /\
     find_root_with_shift_nc fuel (f_par g) (f_off g) (Z.of_nat i) = Done (Z.of_nat r, c)).
  { intros g R B [J1 J2 J3 J4 (G & J5 & _) J6 J7 J8 J9] i Hi.
    destruct (find_shift_correct fuel (f_par g) (f_off g) i ltac:(congruence) G (J5 i ltac:(lia)) ltac:(lia))
      as (r & c & p1 & o1 & Ri & _ & N1 & _). eauto. }
  assert (FR : forall i r c, rpos (f_par f') (f_off f') i r c -> (i < n)%nat ->
     find_root_with_shift_nc fuel (f_par f') (f_off f') (Z.of_nat i) = Done (Z.of_nat r, c)).
  { intros i r c Ri Hi. destruct (FN f' _ _ I' i Hi) as (r2 & c2 & R2 & F2).
    destruct (rpos_fun _ _ _ _ _ Ri _ _ R2) as [-> ->]. exact F2. }
  split.
  - intros i j r ci cj Fi Fj Hi Hj.
    destruct (FN f _ _ I i Hi) as (r1 & c1 & R1 & F1). destruct (FN f _ _ I j Hj) as (r2 & c2 & R2 & F2).
    rewrite F1 in Fi. rewrite F2 in Fj. injection Fi as <- <-. injection Fj as Er <-.
    assert (r2 = r1) by lia. subst r2.
    destruct (K i j r1 c1 c2 R1 R2) as (r' & ci' & cj' & Ri' & Rj' & EQ).
    exists (Z.of_nat r'), ci', cj'. auto.
  - intros NC. destruct AC as [[-> C]|[-> _]]; [contradiction|].
    destruct (si_edge _ _ _ _ I' a b s) as (r & ca & cb & Ra & Rb & EQ); [apply in_or_app; right; now left|].
    exists (Z.of_nat r), ca, cb. auto.
Qed.
