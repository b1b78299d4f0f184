(** What the two saddle tests decide. *)
From Coq Require Import QArith.
From Verif Require Import Base GridModel GridProofs NearProofs NeighModel RootsModel RootsSpec RootsProofs UnionModel UnionSpec UnionProofs VaspTop SaddleModel SaddleSpec SaddleBox SaddleProofs.
Local Open Scope Z_scope.

Notation conns_of size := (snd (get_connections_in_box size)).
Definition ix (size : Z) (s : pos) : nat := Z.to_nat (trans_to_idx s size).
Lemma in_pick size f a b : 0 <= size -> In (a, b) (pick f (conns_of size)) <->
  exists s t, in_range size s /\ in_range size t /\ adjacent s t /\ a = ix size s /\ b = ix size t /\ (a < b)%nat /\ f a b = true.
Proof.
  intros P. unfold pick. rewrite filter_In, in_map_iff. split.
  - intros [([A B] & E & I) F]. injection E as <- <-. apply in_connections in I as (s & t & S & T & AD & -> & -> & L); [|exact P]. exists s, t. do 3 (split; [assumption|]). split; [reflexivity|]. split; [reflexivity|]. split; [|exact F]. pose proof (idx_range size s P S). lia.
  - intros (s & t & S & T & AD & -> & -> & L & F). split; [|exact F]. exists (trans_to_idx s size, trans_to_idx t size). split; [reflexivity|]. apply in_connections; [exact P|]. exists s, t. do 3 (split; [assumption|]). split; [reflexivity|]. split; [reflexivity|]. unfold ix in L. lia.
Qed.
Lemma pick_ext f g l : (forall a b, f a b = g a b) -> pick f l = pick g l.
Proof. intros H. unfold pick. apply filter_ext. intros [a b]. apply H. Qed.
Lemma ix_lt size s : 0 <= size -> in_range size s -> (ix size s < length (box size))%nat.
Proof. intros P R. rewrite box_length by exact P. pose proof (idx_range size s P R). unfold ix. lia. Qed.
Lemma ix_at size s : 0 <= size -> in_range size s -> at_idx size (ix size s) = s.
Proof. apply at_idx_of. Qed.
Lemma ix_neq size s t : 0 <= size -> in_range size s -> in_range size t -> s <> t -> ix size s <> ix size t.
Proof. intros P S T N E. apply N. rewrite <- (ix_at size s P S), <- (ix_at size t P T). now rewrite E. Qed.

(** Unions between the marked offsets only. *)
Lemma stage_one size fuel m : 0 <= size -> length m = length (box size) -> (length m <= fuel)%nat ->
  let req := pick (fun a b => nth a m false && nth b m false) (conns_of size) in
  exists p r, run_mask fuel req (identity (length m)) m = Done (p, r) /\ length p = length m /\
    uf_inv (selfs m ++ req) p /\ mask_inv (selfs m ++ req) p r /\
    parts (fun s => in_range size s /\ nth (ix size s) m false = true) (count_true r).
Proof.
  intros P L F req. destruct (selfs_inv (length m) m eq_refl) as [I0 M0].
  assert (RB : forall x y, In (x, y) req -> (x < length (identity (length m)))%nat /\ (y < length (identity (length m)))%nat).
  { intros x y I. apply in_pick in I as (s & t & S & T & _ & -> & -> & _); [|exact P]. rewrite identity_length, L. split; now apply ix_lt. }
  destruct (run_mask_inv fuel req (selfs m) (identity (length m)) m I0 M0) as (p & r & E & LP & IU & MU); [now rewrite identity_length|exact RB|].
  exists p, r. split; [exact E|]. split; [now rewrite LP, identity_length|]. split; [exact IU|]. split; [exact MU|].
  destruct (mask_groups _ _ _ IU MU) as (reps & ND & LR & RM & RC & RD). rewrite <- LR. apply (groups_parts size _ (selfs m ++ req)); auto.
  - intros s [S _]. exact S.
  - intros e. split.
    + intros (x & y & I & H). apply in_app_iff in I as [I|I].
      * apply in_selfs in I as [<- I]. assert (e = x) by tauto. subst e. assert (LX : (x < length (box size))%nat) by (rewrite <- L; destruct (Nat.lt_ge_cases x (length m)); [assumption|rewrite nth_overflow in I by assumption; discriminate]).
        split; [exact LX|]. split; [now apply at_idx_range|]. unfold ix. rewrite idx_at by assumption. exact I.
      * apply in_pick in I as (s & t & S & T & _ & -> & -> & _ & I); [|exact P]. apply andb_true_iff in I as [I1 I2]. destruct H as [->| ->]; (split; [now apply ix_lt|]; rewrite ix_at by assumption; split; assumption).
    + intros (LE & R & H). unfold ix in H. rewrite idx_at in H by assumption. exists e, e. split; [|now left]. apply in_app_iff. left. now apply in_selfs.
  - intros a b I. apply in_app_iff in I as [I|I]; [apply in_selfs in I; now left|]. apply in_pick in I as (s & t & S & T & AD & -> & -> & _); [|exact P]. right. now rewrite !ix_at by assumption.
  - intros s t [S HS] [T HT] AD. change (Z.to_nat (trans_to_idx s size)) with (ix size s). change (Z.to_nat (trans_to_idx t size)) with (ix size t). cbv zeta.
    assert (NE := ix_neq size s t P S T (proj1 AD)). destruct (Nat.lt_ge_cases (ix size s) (ix size t)) as [LT|GE]; [left|right]; apply in_app_iff; right; apply in_pick; auto.
    + exists s, t. do 3 (split; [assumption|]). do 2 (split; [reflexivity|]). split; [exact LT|]. now rewrite HS, HT.
    + exists t, s. do 2 (split; [assumption|]). split; [now apply adjacent_sym|]. do 2 (split; [reflexivity|]). split; [lia|]. now rewrite HS, HT.
Qed.

(** Then unions with the points of the value itself. *)
Definition counted (size : Z) (k : pos -> nat) (s : pos) : Prop :=
  in_range size s /\ (1 <= k s)%nat /\ (k s = 2%nat \/ exists t, in_range size t /\ adjacent s t /\ (1 <= k t)%nat).
Lemma stage_two size fuel k : 0 <= size -> (forall s, (k s <= 2)%nat) -> (length (box size) <= fuel)%nat ->
  let mask := map k (box size) in let type a b := Nat.min (nth a mask 0%nat) (nth b mask 0%nat) in
  exists p r p' r', run_mask fuel (pick (fun a b => Nat.eqb (type a b) 2) (conns_of size)) (map Z.of_nat (seq 0 (length (box size)))) (map (fun m => Nat.eqb m 2) mask) = Done (p, r) /\
    run_mask fuel (pick (fun a b => Nat.eqb (type a b) 1) (conns_of size)) p r = Done (p', r') /\
    parts (fun s => in_range size s /\ k s = 2%nat) (count_true r) /\ parts (counted size k) (count_true r').
Proof.
  intros P K2 F mask type. set (m := map (fun m => Nat.eqb m 2) mask). assert (LM : length m = length (box size)) by (unfold m, mask; now rewrite !map_length).
  assert (NK : forall s, in_range size s -> nth (ix size s) mask 0%nat = k s).
  { intros s S. unfold mask. rewrite (nth_indep _ 0%nat (k (- size, - size, - size))) by (rewrite map_length; now apply ix_lt). rewrite map_nth. f_equal. now apply ix_at. }
  assert (NM : forall a, nth a m false = Nat.eqb (nth a mask 0%nat) 2) by (intros a; unfold m; now rewrite <- (map_nth (fun m => Nat.eqb m 2) mask 0%nat a)).
  destruct (stage_one size fuel m P LM ltac:(lia)) as (p & r & E & LP & IU & MU & PA). set (req := pick (fun a b => nth a m false && nth b m false) (conns_of size)) in *.
  assert (EX : pick (fun a b => Nat.eqb (type a b) 2) (conns_of size) = req).
  { apply pick_ext. intros a b. rewrite !NM. unfold type. assert (BA : (nth a mask 0 <= 2)%nat) by (unfold mask; destruct (nth_in_or_default a (map k (box size)) 0%nat) as [I| ->]; [apply in_map_iff in I as (x & <- & _); apply K2|lia]). assert (BB : (nth b mask 0 <= 2)%nat) by (unfold mask; destruct (nth_in_or_default b (map k (box size)) 0%nat) as [I| ->]; [apply in_map_iff in I as (x & <- & _); apply K2|lia]).
    destruct (Nat.eqb_spec (nth a mask 0%nat) 2), (Nat.eqb_spec (nth b mask 0%nat) 2), (Nat.eqb_spec (Nat.min (nth a mask 0%nat) (nth b mask 0%nat)) 2); cbn; lia || reflexivity. }
  set (req' := pick (fun a b => Nat.eqb (type a b) 1) (conns_of size)).
  assert (RB : forall x y, In (x, y) req' -> (x < length p)%nat /\ (y < length p)%nat) by (intros x y I; apply in_pick in I as (s & t & S & T & _ & -> & -> & _); [|exact P]; rewrite LP, LM; split; now apply ix_lt).
  destruct (run_mask_inv fuel req' _ p r IU MU ltac:(lia) RB) as (p' & r' & E' & LP' & IU' & MU').
  exists p, r, p', r'. split; [|split; [exact E'|split]].
  - rewrite EX. fold (identity (length (box size))). rewrite <- LM. exact E.
  - eapply parts_ext; [|exact PA]. intros s. cbv beta. split; intros [S H]; (split; [exact S|]); rewrite NM, NK in * by assumption; [now apply Nat.eqb_eq|now apply Nat.eqb_eq].
  - destruct (mask_groups _ _ _ IU' MU') as (reps & ND & LR & RM & RC & RD). rewrite <- LR.
    assert (TY : forall s t, in_range size s -> in_range size t -> type (ix size s) (ix size t) = Nat.min (k s) (k t)) by (intros s t S T; unfold type; now rewrite !NK by assumption).
    assert (PAIR : forall s t, in_range size s -> in_range size t -> adjacent s t -> (1 <= k s)%nat -> (1 <= k t)%nat -> In (ix size s, ix size t) ((selfs m ++ req) ++ req') \/ In (ix size t, ix size s) ((selfs m ++ req) ++ req')).
    { intros s t S T AD HS HT. assert (NE := ix_neq size s t P S T (proj1 AD)). assert (KS := K2 s). assert (KT := K2 t).
      assert (GO : forall u v, in_range size u -> in_range size v -> adjacent u v -> (ix size u < ix size v)%nat -> (1 <= k u <= 2)%nat -> (1 <= k v <= 2)%nat -> In (ix size u, ix size v) ((selfs m ++ req) ++ req')).
      { intros u v U V AU LT HU HV. assert (TU := TY u v U V). destruct (Nat.eq_dec (Nat.min (k u) (k v)) 2) as [M2|M1].
        - apply in_app_iff. left. apply in_app_iff. right. unfold req. apply in_pick; [exact P|]. exists u, v. do 3 (split; [assumption|]). do 2 (split; [reflexivity|]). split; [exact LT|]. rewrite !NM, !NK by assumption. apply andb_true_iff. split; apply Nat.eqb_eq; lia.
        - apply in_app_iff. right. unfold req'. apply in_pick; [exact P|]. exists u, v. do 3 (split; [assumption|]). do 2 (split; [reflexivity|]). split; [exact LT|]. apply Nat.eqb_eq. rewrite TU. lia. }
      destruct (Nat.lt_ge_cases (ix size s) (ix size t)); [left; apply GO; auto|right; apply GO; auto; [now apply adjacent_sym|lia]]. }
    apply (groups_parts size _ ((selfs m ++ req) ++ req')); auto.
    + intros s [S _]. exact S.
    + intros e. split.
      * intros (x & y & I & H). rewrite <- app_assoc in I. apply in_app_iff in I as [I|I].
        -- apply in_selfs in I as [<- I]. assert (e = x) by tauto. subst e. assert (LX : (x < length (box size))%nat) by (rewrite <- LM; destruct (Nat.lt_ge_cases x (length m)); [assumption|rewrite nth_overflow in I by assumption; discriminate]).
           split; [exact LX|]. assert (R := at_idx_range size x P LX). rewrite NM in I. apply Nat.eqb_eq in I. assert (KX : k (at_idx size x) = 2%nat) by (rewrite <- NK by exact R; unfold ix; now rewrite idx_at by assumption). split; [exact R|]. split; [lia|now left].
        -- assert (C : exists s t, in_range size s /\ in_range size t /\ adjacent s t /\ x = ix size s /\ y = ix size t /\ (1 <= k s)%nat /\ (1 <= k t)%nat).
           { apply in_app_iff in I as [I|I]; (apply in_pick in I as (s & t & S & T & AD & -> & -> & _ & I); [|exact P]); exists s, t; do 3 (split; [assumption|]); do 2 (split; [reflexivity|]).
             - rewrite !NM, !NK in I by assumption. apply andb_true_iff in I as [I1 I2]. apply Nat.eqb_eq in I1, I2. lia.
             - apply Nat.eqb_eq in I. rewrite TY in I by assumption. lia. }
           destruct C as (s & t & S & T & AD & -> & -> & HS & HT). destruct H as [->| ->]; (split; [now apply ix_lt|]); rewrite ix_at by assumption; (split; [assumption|]); (split; [assumption|]); right; [exists t; auto|exists s; split; [assumption|]; split; [now apply adjacent_sym|assumption]].
      * intros (LE & R & H1 & H). assert (IE : ix size (at_idx size e) = e) by (unfold ix; now apply idx_at). destruct H as [H|(t & T & AD & HT)].
        -- exists e, e. split; [|now left]. rewrite <- app_assoc. apply in_app_iff. left. apply in_selfs. split; [reflexivity|]. rewrite NM. apply Nat.eqb_eq. rewrite <- IE, NK by exact R. exact H.
        -- destruct (PAIR _ _ R T AD H1 HT) as [I|I]; rewrite IE in I; [exists e, (ix size t); auto|exists (ix size t), e; auto].
    + intros a b I. rewrite <- app_assoc in I. apply in_app_iff in I as [I|I]; [apply in_selfs in I; now left|]. right. apply in_app_iff in I as [I|I]; (apply in_pick in I as (s & t & S & T & AD & -> & -> & _); [|exact P]); now rewrite !ix_at by assumption.
    + intros s t (S & HS & _) (T & HT & _) AD. now apply PAIR.
Qed.
