From Coq Require Import QArith Qfield.
From Verif Require Import Base RootsModel UnionModel ChargeModel ChargeProofs ShareModel ShareSpec.
Local Open Scope nat_scope.

(** What a list of pieces gives to atom [a]. *)
Definition gets (a : nat) (l : list (nat * Q)) : Q := qsum (map (fun p => if Nat.eqb a (fst p) then snd p else 0%Q) l).

Definition qpart (l : list (nat * Q * Q)) : list (nat * Q) := map fst l.
Definition vpart (l : list (nat * Q * Q)) : list (nat * Q) := map (fun p => (fst (fst p), snd p)) l.

Lemma add_both_ok st i c v n : length (fst st) = n -> length (snd st) = n -> i < n ->
  exists st', add_both st i c v = Done st' /\ length (fst st') = n /\ length (snd st') = n /\
    (forall a, (nth a (fst st') 0 == nth a (fst st) 0 + (if Nat.eqb a i then c else 0))%Q /\
               (nth a (snd st') 0 == nth a (snd st) 0 + (if Nat.eqb a i then v else 0))%Q).
Proof.
  intros L1 L2 H. unfold add_both, add_idx. rewrite L1, L2. apply Nat.ltb_lt in H as H'. rewrite H'. cbn [obind].
  eexists. split; [reflexivity|]. cbn [fst snd]. rewrite !add_at_length. repeat (split; [assumption|]).
  intro a. rewrite !nth_add_at by lia. rewrite (Nat.eqb_sym a i). destruct (Nat.eqb_spec i a); [subst|]; split; ring.
Qed.

Lemma add_pieces_ok n l : forall st, length (fst st) = n -> length (snd st) = n ->
  (forall a c v, In (a, c, v) l -> a < n) ->
  exists st', add_pieces st l = Done st' /\ length (fst st') = n /\ length (snd st') = n /\
    (forall a, (nth a (fst st') 0 == nth a (fst st) 0 + gets a (qpart l))%Q /\
               (nth a (snd st') 0 == nth a (snd st) 0 + gets a (vpart l))%Q).
Proof.
  induction l as [|[[b c] v] t IH]; intros st L1 L2 H.
  - exists st. split; [reflexivity|]. split; [exact L1|]. split; [exact L2|]. intro a. unfold gets. cbn. split; ring.
  - destruct (add_both_ok st b c v n L1 L2 (H b c v (or_introl eq_refl))) as (s1 & E1 & M1 & M2 & N1).
    destruct (IH s1 M1 M2) as (s2 & E2 & K1 & K2 & N2); [intros; eapply H; right; eassumption|].
    exists s2. cbn [add_pieces]. rewrite E1. cbn [obind]. rewrite E2. split; [reflexivity|]. split; [exact K1|]. split; [exact K2|]. intro a.
    destruct (N1 a) as (A1 & A2). destruct (N2 a) as (B1 & B2). unfold gets, qpart, vpart in *.
    cbn [map fst snd]. split; [rewrite qsum_cons, B1, A1|rewrite qsum_cons, B2, A2]; ring.
Qed.

(** [np.unique] *)
Lemma insert_nat_in x l y : In y (insert_nat x l) <-> y = x \/ In y l.
Proof.
  induction l as [|z t IH]; [cbn; intuition|]. cbn [insert_nat]. destruct (Nat.ltb_spec x z); [cbn [In]; intuition|].
  destruct (Nat.ltb_spec z x); [cbn [In]; rewrite IH; tauto|]. assert (x = z) by lia. subst. cbn [In]. intuition.
Qed.
Lemma unique_atoms_in l y : In y (unique_atoms l) <-> In y l.
Proof. induction l as [|x t IH]; cbn; [tauto|]. rewrite insert_nat_in, IH. intuition. Qed.
Fixpoint increasing (l : list nat) : Prop := match l with [] => True | x :: t => (forall y, In y t -> x < y) /\ increasing t end.
Lemma insert_nat_inc x l : increasing l -> increasing (insert_nat x l).
Proof.
  induction l as [|z t IH]; [cbn; tauto|]. cbn [insert_nat]. intro HI. destruct (Nat.ltb_spec x z); cbn [increasing] in HI; destruct HI as (A & B).
  - cbn. split; [|auto]. intros y [<-|Hy]; [lia|]. specialize (A y Hy). lia.
  - destruct (Nat.ltb_spec z x); [|cbn; auto]. cbn [increasing]. split; [|auto]. intros y Hy. apply insert_nat_in in Hy as [->|Hy]; auto.
Qed.
Lemma increasing_nodup l : increasing l -> NoDup l.
Proof.
  induction l as [|x t IH]; cbn; [constructor|]. intros (A & B). constructor; [|auto]. intro H. specialize (A x H). lia.
Qed.
Lemma unique_atoms_nodup l : NoDup (unique_atoms l).
Proof. apply increasing_nodup. induction l as [|x t IH]; [exact I|]. cbn. now apply insert_nat_inc. Qed.

Lemma gets_nodup (g : nat -> Q) l a : NoDup l ->
  (gets a (map (fun b => (b, g b)) l) == if existsb (Nat.eqb a) l then g a else 0)%Q.
Proof.
  unfold gets. rewrite map_map. cbn [fst snd]. induction 1 as [|b t N ND IH]; [reflexivity|].
  cbn [map qsum fold_right existsb]. destruct (Nat.eqb_spec a b) as [->|Nb].
  - cbn [orb]. assert (Z : (qsum (map (fun x => if Nat.eqb b x then g x else 0%Q) t) == 0)%Q).
    { clear -N. induction t as [|c t IH]; [reflexivity|]. cbn. destruct (Nat.eqb_spec b c); [subst; exfalso; apply N; now left|].
      fold (qsum (map (fun x => if Nat.eqb b x then g x else 0%Q) t)). rewrite IH; [ring|]. intro; apply N; now right. }
    fold (qsum (map (fun x => if Nat.eqb b x then g x else 0%Q) t)). rewrite Z. ring.
  - cbn [orb]. fold (qsum (map (fun x => if Nat.eqb a x then g x else 0%Q) t)). rewrite IH. ring.
Qed.

Lemma count_sum a l (x : Q) : (count a l * x == qsum (map (fun b => if Nat.eqb a b then x else 0%Q) l))%Q.
Proof.
  unfold count. induction l as [|b t IH]; [cbn; ring|]. cbn [count_occ map qsum fold_right].
  fold (qsum (map (fun b => if Nat.eqb a b then x else 0%Q) t)). rewrite <- IH.
  destruct (Nat.eq_dec b a) as [->|N].
  - rewrite Nat.eqb_refl. rewrite Nat2Z.inj_succ. unfold Z.succ. rewrite inject_Z_plus. ring.
  - destruct (Nat.eqb_spec a b); [congruence|]. ring.
Qed.

Lemma total_sum l : (total l == qsum l)%Q.
Proof.
  unfold total. assert (G : forall a, (fold_left Qplus l a == a + qsum l)%Q).
  { induction l as [|x t IH]; intro a; cbn; [ring|]. rewrite IH. fold (qsum t). ring. }
  rewrite G. ring.
Qed.

Lemma first_at_nth {A} (f : nat -> A) a l d : In a l -> nth (first_at a l) (map f l) d = f a.
Proof.
  induction l as [|b t IH]; [intros []|]. cbn. destruct (Nat.eqb_spec b a) as [->|N]; [reflexivity|].
  intros [E|H]; [congruence|]. now apply IH.
Qed.

Lemma gets_combine (f g : nat -> Q) (q : Q) a l :
  (forall b, g b == q * f b)%Q ->
  (gets a (map (fun b => (b, g b)) l) == q * qsum (map (fun b => if Nat.eqb a b then f b else 0) l))%Q.
Proof.
  intro H. unfold gets. rewrite map_map. cbn [fst snd]. rewrite <- qsum_map_scale. apply qsum_map_ext.
  intros b _. destruct (Nat.eqb a b); [apply H|ring].
Qed.

Lemma firstn_app_exact {A} (p q : list A) : firstn (length p) (p ++ q) = p.
Proof. now rewrite firstn_app, Nat.sub_diag, firstn_all, app_nil_r. Qed.

Section S.
Variable sys : system.
Variable use_e : bool.
Variable m : method.

Definition part (f : feature) (a : nat) (q : Q) : Q := (q * fraction sys use_e m f a)%Q.

Lemma not_in_zero (f : nat -> Q) a l : ~ In a l -> (qsum (map (fun b => if Nat.eqb a b then f b else 0%Q) l) == 0)%Q.
Proof.
  intro H. rewrite <- (qsum_map_zero l). apply qsum_map_ext. intros b Hb. destruct (Nat.eqb_spec a b); [congruence|reflexivity].
Qed.

Lemma existsb_in a l : existsb (Nat.eqb a) l = true <-> In a l.
Proof.
  rewrite existsb_exists. split; [intros (x & H & E); apply Nat.eqb_eq in E; now subst|intro H; exists a; split; [exact H|apply Nat.eqb_refl]].
Qed.

Lemma unique_case (rawf : nat -> Q) (g : nat -> Q) q l a T : ~ (T == 0)%Q ->
  (forall b, In b l -> g b == q * (rawf b / T) * count b l)%Q ->
  (gets a (map (fun b => (b, g b)) (unique_atoms l)) ==
     q * (qsum (map (fun b => if Nat.eqb a b then rawf b else 0) l) / T))%Q.
Proof.
  intros HT H. rewrite gets_nodup by apply unique_atoms_nodup.
  destruct (existsb (Nat.eqb a) (unique_atoms l)) eqn:E.
  - apply existsb_in, (proj1 (unique_atoms_in _ _)) in E. rewrite (H a E).
    assert (C : (count a l * rawf a == qsum (map (fun b => if Nat.eqb a b then rawf b else 0) l))%Q).
    { rewrite count_sum. apply qsum_map_ext. intros b _. destruct (Nat.eqb_spec a b); [subst|]; reflexivity. }
    rewrite <- C. field. exact HT.
  - assert (N : ~ In a l) by (intro H'; apply unique_atoms_in in H'; apply existsb_in in H'; congruence).
    rewrite not_in_zero by exact N. field. exact HT.
Qed.

Lemma weighted_case (rawf g : nat -> Q) q l a T :
  (forall b, g b == q * (rawf b / T))%Q ->
  (gets a (map (fun b => (b, g b)) l) == q * (qsum (map (fun b => if Nat.eqb a b then rawf b else 0) l) / T))%Q.
Proof.
  intro H. rewrite (gets_combine (fun b => (rawf b / T)%Q) g q a l H). apply Qmult_comp; [reflexivity|].
  unfold Qdiv. rewrite (Qmult_comm (qsum _)), <- qsum_map_scale. apply qsum_map_ext. intros b _.
  destruct (Nat.eqb a b); [apply Qmult_comm|ring].
Qed.

Lemma combine_map2 {A B C} (f : A -> B) (g : A -> C) l : combine (map f l) (map g l) = map (fun x => (f x, g x)) l.
Proof. induction l; cbn; congruence. Qed.
Lemma combine_id_map {A B} (g : A -> B) l : combine l (map g l) = map (fun x => (x, g x)) l.
Proof. induction l; cbn; congruence. Qed.

Lemma share_ok n f st : m <> Nearest -> length (fst st) = n -> length (snd st) = n ->
  neighbours use_e f <> [] -> (forall b, In b (neighbours use_e f) -> b < n) ->
  (1 < length (neighbours use_e f) -> ~ (qsum (map (raw sys use_e m f) (neighbours use_e f)) == 0)%Q) ->
  exists st', share sys use_e m st f = Done st' /\ length (fst st') = n /\ length (snd st') = n /\
    (forall a, (nth a (fst st') 0 == nth a (fst st) 0 + ft_charge f * fraction sys use_e m f a)%Q /\
               (nth a (snd st') 0 == nth a (snd st) 0 + ft_volume f * fraction sys use_e m f a)%Q).
Proof.
  intros HM L1 L2 NE R Z.
  assert (FIN : forall l, (forall a c v, In (a, c, v) l -> In a (neighbours use_e f)) ->
    (forall a, (gets a (qpart l) == ft_charge f * fraction sys use_e m f a)%Q /\
               (gets a (vpart l) == ft_volume f * fraction sys use_e m f a)%Q) ->
    exists st', add_pieces st l = Done st' /\ length (fst st') = n /\ length (snd st') = n /\
    (forall a, (nth a (fst st') 0 == nth a (fst st) 0 + ft_charge f * fraction sys use_e m f a)%Q /\
               (nth a (snd st') 0 == nth a (snd st) 0 + ft_volume f * fraction sys use_e m f a)%Q)).
  { intros l I G. destruct (add_pieces_ok n l st L1 L2) as (st' & E & M1 & M2 & N).
    { intros a c v H. apply R. now apply (I a c v). }
    exists st'. repeat (split; [assumption|]). intro a. destruct (N a) as (N1 & N2). destruct (G a) as (G1 & G2).
    now rewrite N1, N2, G1, G2. }
  unfold share. change (coord use_e f) with (neighbours use_e f) in *.
  destruct (neighbours use_e f) as [|a0 [|a1 t]] eqn:EC; [congruence| |].
  { destruct (add_both_ok st a0 (ft_charge f) (ft_volume f) n L1 L2 (R a0 (or_introl eq_refl))) as (st' & E & M1 & M2 & N).
    exists st'. repeat (split; [assumption|]). intro a. unfold fraction. rewrite EC. destruct (N a) as (N1 & N2).
    rewrite N1, N2. destruct (Nat.eqb a a0); split; ring. }
  specialize (Z ltac:(cbn; lia)). remember (a0 :: a1 :: t) as l eqn:El.
  assert (FR : forall a, fraction sys use_e m f a =
    (qsum (map (fun b => if Nat.eqb a b then raw sys use_e m f b else 0%Q) l) / qsum (map (raw sys use_e m f) l))%Q).
  { intro a. unfold fraction. rewrite EC, El. reflexivity. }
  assert (NORM : forall g : nat -> Q, normalised (map g l) = map (fun b => (g b / total (map g l))%Q) l).
  { intro g. unfold normalised. rewrite map_map. reflexivity. }
  destruct m; [| | | |congruence].
  - apply FIN.
    + intros a c v H. apply in_map_iff in H as (b & [= <- _ _] & H). exact (proj1 (unique_atoms_in _ _) H).
    + intro a. rewrite FR. unfold qpart, vpart. rewrite !map_map. cbn [fst snd].
      assert (T : (inject_Z (Z.of_nat (length l)) == qsum (map (raw sys use_e Equal f) l))%Q).
      { unfold raw. rewrite <- (qsum_ones l). reflexivity. }
      split; (apply (unique_case (raw sys use_e Equal f)); [exact Z|]); intros b _; rewrite <- T; unfold raw; field; rewrite T; exact Z.
  - apply FIN.
    + intros a c v H. apply in_map_iff in H as (b & [= <- _ _] & H). exact (proj1 (unique_atoms_in _ _) H).
    + intro a. rewrite FR. unfold qpart, vpart. rewrite !map_map. cbn [fst snd].
      change (fun a => nth a (s_en sys) 0%Q) with (raw sys use_e Pauling f). rewrite NORM.
      split; (apply (unique_case (raw sys use_e Pauling f)); [exact Z|]); intros b Hb;
        rewrite (first_at_nth (fun b => (raw sys use_e Pauling f b / total (map (raw sys use_e Pauling f) l))%Q)) by exact Hb;
        rewrite (total_sum (map (raw sys use_e Pauling f) l)); field; exact Z.
  - assert (EW : map (fun d : Q => (1 / d)%Q) (used_dists use_e f) =
        map (fun b => (1 / nth b (if use_e then ft_dists_e f else ft_dists f) 0)%Q) l).
    { unfold used_dists, coord_dists, coord_dists_e, neighbours in *. destruct use_e; rewrite map_map, EC; reflexivity. }
    rewrite EW, NORM, combine_id_map, map_map.
    set (g := fun b => (1 / nth b (if use_e then ft_dists_e f else ft_dists f) 0)%Q) in *.
    assert (GR : forall b, (g b == raw sys use_e Dist f b)%Q) by (intro b; unfold g, raw, Qdiv; ring).
    assert (TT : (total (map g l) == qsum (map (raw sys use_e Dist f) l))%Q).
    { rewrite total_sum. apply qsum_map_ext. intros b _. apply GR. }
    apply FIN.
    + intros a c v H. apply in_map_iff in H as (b & [= <- _ _] & H). exact H.
    + intro a. rewrite FR. unfold qpart, vpart. rewrite !map_map. cbn [fst snd].
      split; apply (weighted_case (raw sys use_e Dist f)); intro b; rewrite TT; fold (g b); rewrite GR; reflexivity.
  - assert (EW : map (fun '(r, d) => (r / d)%Q) (combine (used_radii sys use_e f) (used_dists use_e f)) =
        map (raw sys use_e Weighted f) l).
    { unfold used_radii, used_dists, coord, coord_dists, coord_dists_e, neighbours, raw in *.
      destruct use_e; rewrite EC, combine_map2, map_map; reflexivity. }
    rewrite EW, NORM, combine_id_map, map_map.
    set (g := raw sys use_e Weighted f) in *.
    assert (TT : (total (map g l) == qsum (map g l))%Q) by apply total_sum.
    apply FIN.
    + intros a c v H. apply in_map_iff in H as (b & [= <- _ _] & H). exact H.
    + intro a. rewrite FR. unfold qpart, vpart. rewrite !map_map. cbn [fst snd].
      split; apply (weighted_case g); intro b; rewrite TT; reflexivity.
Qed.

(** Fractions add up to one. *)
Lemma fraction_sum f n : (forall b, In b (neighbours use_e f) -> b < n) -> neighbours use_e f <> [] ->
  (1 < length (neighbours use_e f) -> ~ (qsum (map (raw sys use_e m f) (neighbours use_e f)) == 0)%Q) ->
  (qsum (map (fraction sys use_e m f) (seq 0 n)) == 1)%Q.
Proof.
  intros R NE Z. unfold fraction. destruct (neighbours use_e f) as [|a0 [|a1 t]] eqn:EC; [congruence| |].
  - etransitivity; [apply (qsum_map_ext _ (fun a => if Nat.eqb a0 a then 1%Q else 0%Q)); intros a _; now rewrite Nat.eqb_sym|].
    apply qsum_indicator. apply R. now left.
  - specialize (Z ltac:(cbn; lia)). remember (a0 :: a1 :: t) as l. set (T := qsum (map (raw sys use_e m f) l)) in *.
    etransitivity; [apply (qsum_map_ext _ (fun a => (/ T * qsum (map (fun b => if Nat.eqb a b then raw sys use_e m f b else 0) l))%Q));
      intros a _; unfold Qdiv; ring|].
    rewrite qsum_map_scale, qsum_swap.
    assert (E : (qsum (map (fun b => qsum (map (fun a => if Nat.eqb a b then raw sys use_e m f b else 0%Q) (seq 0 n))) l) == T)%Q).
    { apply qsum_map_ext. intros b Hb.
      etransitivity; [apply (qsum_map_ext _ (fun a => if Nat.eqb b a then raw sys use_e m f b else 0%Q)); intros a _; now rewrite Nat.eqb_sym|].
      apply qsum_indicator. now apply R. }
    rewrite E, Qmult_comm. now apply Qmult_inv_r.
Qed.

Definition got (w : feature -> Q) (i : nat) (l : list feature) (a : nat) : Q :=
  qsum (map (fun '(j, f) => (w f * owned sys use_e m j f a)%Q) (combine (seq i (length l)) l)).

Lemma feature_loop_ok : sharable sys use_e m -> forall l pre st,
  s_features sys = pre ++ l -> length (fst st) = n_sites sys use_e -> length (snd st) = n_sites sys use_e ->
  exists st', feature_loop sys use_e m st (length (filter ft_bare (if use_e then pre else []))) l = Done st' /\
    length (fst st') = n_sites sys use_e /\ length (snd st') = n_sites sys use_e /\
    (forall a, (nth a (fst st') 0 == nth a (fst st) 0 + got ft_charge (length pre) l a)%Q /\
               (nth a (snd st') 0 == nth a (snd st) 0 + got ft_volume (length pre) l a)%Q).
Proof.
  intros (HM & HS). induction l as [|f t IH]; intros pre st E L1 L2.
  - exists st. split; [reflexivity|]. split; [exact L1|]. split; [exact L2|]. intro a. unfold got. cbn. split; ring.
  - assert (FB : firstn (length pre) (s_features sys) = pre) by (rewrite E; apply firstn_app_exact).
    assert (ST : exists st' , feature_step sys use_e m st (length (filter ft_bare (if use_e then pre else []))) f
        = Done (st', length (filter ft_bare (if use_e then pre ++ [f] else []))) /\
      length (fst st') = n_sites sys use_e /\ length (snd st') = n_sites sys use_e /\
      (forall a, (nth a (fst st') 0 == nth a (fst st) 0 + ft_charge f * owned sys use_e m (length pre) f a)%Q /\
                 (nth a (snd st') 0 == nth a (snd st) 0 + ft_volume f * owned sys use_e m (length pre) f a)%Q)).
    { unfold feature_step, owned. rewrite FB. destruct (use_e && ft_bare f)%bool eqn:B.
      - apply Bool.andb_true_iff in B as (U & B). rewrite U in *.
        destruct (add_both_ok st (s_atoms sys + length (filter ft_bare pre)) (ft_charge f) (ft_volume f) _ L1 L2) as (st' & E' & M1 & M2 & N).
        { unfold n_sites. rewrite E, filter_app, app_length. cbn. rewrite B. cbn. lia. }
        rewrite E'. cbn [obind]. exists st'. split; [|split; [exact M1|split; [exact M2|]]].
        + f_equal. f_equal. rewrite filter_app, app_length. cbn. rewrite B. cbn. lia.
        + intro a. destruct (N a) as (N1 & N2). rewrite N1, N2. destruct (Nat.eqb a _); split; ring.
      - destruct (HS f) as (H1 & H2 & H3); [rewrite E; apply in_or_app; right; now left|exact B|].
        destruct (share_ok _ f st HM L1 L2 H1 H2) as (st' & E' & M1 & M2 & N); [intro H; now apply H3|].
        rewrite E'. cbn [obind]. exists st'. split; [|split; [exact M1|split; [exact M2|exact N]]].
        f_equal. f_equal. destruct use_e; [|reflexivity]. cbn in B. rewrite filter_app, app_length. cbn. rewrite B. cbn. lia. }
    destruct ST as (s1 & E1 & M1 & M2 & N1). cbn [feature_loop]. rewrite E1. cbn [obind].
    destruct (IH (pre ++ [f]) s1) as (s2 & E2 & K1 & K2 & N2); [rewrite <- app_assoc; exact E|exact M1|exact M2|].
    exists s2. split; [exact E2|]. split; [exact K1|]. split; [exact K2|]. intro a.
    destruct (N1 a) as (A1 & A2). destruct (N2 a) as (B1 & B2). rewrite app_length in B1, B2. cbn [length] in B1, B2.
    rewrite Nat.add_1_r in B1, B2. unfold got in *. cbn [length seq combine map]. rewrite !qsum_cons, B1, B2, A1, A2. split; ring.
Qed.

Lemma owned_sum i f : sharable sys use_e m -> nth_error (s_features sys) i = Some f ->
  (qsum (map (owned sys use_e m i f) (seq 0 (n_sites sys use_e))) == 1)%Q.
Proof.
  intros (HM & HS) Hi. unfold owned. destruct (use_e && ft_bare f)%bool eqn:B.
  - apply Bool.andb_true_iff in B as (U & B). set (k := s_atoms sys + _).
    etransitivity; [apply (qsum_map_ext _ (fun a => if Nat.eqb k a then 1%Q else 0%Q)); intros a _; now rewrite Nat.eqb_sym|].
    apply qsum_indicator. unfold k, n_sites. rewrite U.
    apply nth_error_split in Hi as (p & q & E & Lp). rewrite E, <- Lp, firstn_app_exact, filter_app, app_length. cbn. rewrite B. cbn. lia.
  - destruct (HS f) as (H1 & H2 & H3); [eapply nth_error_In; exact Hi|exact B|]. apply fraction_sum; [exact H2|exact H1|intro H; now apply H3].
Qed.
End S.
