From Verif Require Import Base GridModel NeighModel RootsModel RootsSpec RootsProofs UnionModel UnionSpec UnionProofs CompressModel.
From Coq Require Import ZifyBool ZifyNat.

Section Conc.
Variable p0 : list Z.
Hypothesis G0 : good_pointers p0.
Let n := length p0.

(** [nd x r d]: node [x] has root [r] and depth [d] in the initial forest. *)
Definition nd (x r d : nat) : Prop := climb p0 d x r.

Definition mem_ok (mem : list Z) : Prop :=
  length mem = n /\
  (forall i, nth_error p0 i = Some (-1) -> nth_error mem i = Some (-1)) /\
  (forall i r d, nd i r d -> exists j dj, nth_error mem i = Some (Z.of_nat j) /\ nd j r dj /\
     ((d = 0%nat /\ j = i) \/ (dj < d)%nat)).

(** thread [i] is computing the root of [i] *)
Definition th_ok (i : nat) (t : thread) (m : nat) : Prop :=
  match t with
  | TStart j => j = i /\ (m >= 5 * n + 2)%nat
  | TCond x => exists y r d e, x = Z.of_nat y /\ nd i r e /\ nd y r d /\ (m >= 5 * d + 1)%nat
  | TRead1 x => exists y r d e, x = Z.of_nat y /\ nd i r e /\ nd y r (S d) /\ (m >= 5 * S d)%nat
  | TRead2 x a => exists y r d e z dz, x = Z.of_nat y /\ nd i r e /\ nd y r (S d) /\
        a = Z.of_nat z /\ nd z r dz /\ (dz <= d)%nat /\ (m >= 5 * d + 4)%nat
  | TWrite x b => exists y r d e z dz, x = Z.of_nat y /\ nd i r e /\ nd y r (S d) /\
        b = Z.of_nat z /\ nd z r dz /\ (dz <= d)%nat /\ (m >= 5 * d + 3)%nat
  | TRead3 x => exists y r d e, x = Z.of_nat y /\ nd i r e /\ nd y r (S d) /\ (m >= 5 * d + 2)%nat
  | TDone r => (r = -1 /\ nth_error p0 i = Some (-1)) \/ (exists k e, r = Z.of_nat k /\ nd i k e)
  | TCrash => False
  end.

Lemma nd_lt x r d : nd x r d -> (x < n)%nat /\ (d < n)%nat.
Proof.
  intros H. split.
  - apply lt_active. eapply reaches_active, climb_reaches; eauto.
  - eapply climb_lt_length; eauto.
Qed.

Lemma nd_root r x d : nd x r d -> d = 0%nat -> x = r.
Proof. intros H E. inversion H; subst; congruence. Qed.

Lemma mem_get mem x : mem_ok mem -> (x < n)%nat -> np_get mem (Z.of_nat x) = nth_error mem x.
Proof. intros (L & _) H. apply np_get_nat. lia. Qed.

Lemma th_ok_mono i t m m' : th_ok i t m -> (m <= m')%nat -> th_ok i t m'.
Proof.
  destruct t; simpl; try tauto.
  - intros [A B] H. split; [exact A|lia].
  - intros (y & r & d & e & A & B & C & D) H. exists y, r, d, e. repeat split; auto; lia.
  - intros (y & r & d & e & A & B & C & D) H. exists y, r, d, e. repeat split; auto; lia.
  - intros (y & r & d & e & z & dz & A & B & C & D & E & F & K) H. exists y, r, d, e, z, dz. repeat split; auto; lia.
  - intros (y & r & d & e & z & dz & A & B & C & D & E & F & K) H. exists y, r, d, e, z, dz. repeat split; auto; lia.
  - intros (y & r & d & e & A & B & C & D) H. exists y, r, d, e. repeat split; auto; lia.
Qed.

Lemma nd_fun x r d r' d' : nd x r d -> nd x r' d' -> r = r' /\ d = d'.
Proof. intros A B. destruct (climb_fun _ _ _ _ A _ _ B). auto. Qed.

Lemma tstep_ok i t m mem : (i < n)%nat -> mem_ok mem -> th_ok i t m ->
  let '(mem', t') := tstep mem t in
  mem_ok mem' /\ th_ok i t' (m - 1) /\ ((exists r, t' = TDone r) \/ (0 < m)%nat).
Proof.
  intros Hi MO TO. pose proof MO as (L & MV & MN). destruct t as [j|x|x|x a|x b|x|r|]; cbn [th_ok] in TO.
  - destruct TO as [-> Hm]. unfold tstep. rewrite mem_get by auto.
    destruct (nth_error p0 i) as [v|] eqn:Ev; [|exfalso; apply nth_error_None in Ev; unfold n in Hi; lia].
    destruct (Z.eq_dec v (-1)) as [->|Nv].
    + rewrite (MV i Ev). simpl. split; [exact MO|]. split; [left; auto|eauto].
    + destruct (proj2 G0 i v Ev Nv) as (r & R). destruct (reaches_climb _ _ _ R) as (k & C).
      destruct (MN i r k C) as (j & dj & Ej & Nj & Hd). rewrite Ej.
      replace (Z.of_nat j =? -1) with false by lia. split; [exact MO|]. split; [|right; lia].
      exists j, r, dj, k. repeat split; auto. pose proof (nd_lt _ _ _ Nj). lia.
  - destruct TO as (y & r & d & e & -> & Ni & Ny & Hm). unfold tstep.
    destruct (nd_lt _ _ _ Ny) as [Hy _]. rewrite mem_get by auto.
    destruct (MN y r d Ny) as (j & dj & Ej & Nj & Hd). rewrite Ej.
    destruct (Z.eqb_spec (Z.of_nat y) (Z.of_nat j)) as [E|N].
    + assert (y = j) by lia. subst j. split; [exact MO|]. split; [|eauto]. right.
      exists y, e. split; [reflexivity|]. destruct (nd_fun _ _ _ _ _ Ny Nj) as [_ <-].
      destruct Hd as [[-> _]|]; [|lia]. pose proof (nd_root _ _ _ Ny eq_refl). now subst.
    + split; [exact MO|]. split; [|right; lia]. destruct d as [|d].
      * exfalso. destruct Hd as [[_ ->]|]; lia.
      * exists y, r, d, e. repeat split; auto. lia.
  - destruct TO as (y & r & d & e & -> & Ni & Ny & Hm). unfold tstep.
    destruct (nd_lt _ _ _ Ny) as [Hy _]. rewrite mem_get by auto.
    destruct (MN y r (S d) Ny) as (j & dj & Ej & Nj & Hd). rewrite Ej.
    split; [exact MO|]. split; [|right; lia]. exists y, r, d, e, j, dj. repeat split; auto; try lia.
  - destruct TO as (y & r & d & e & z & dz & -> & Ni & Ny & -> & Nz & Hz & Hm). unfold tstep.
    destruct (nd_lt _ _ _ Nz) as [Hzl _]. rewrite mem_get by auto.
    destruct (MN z r dz Nz) as (j & dj & Ej & Nj & Hd). rewrite Ej.
    split; [exact MO|]. split; [|right; lia]. exists y, r, d, e, j, dj. repeat split; auto; try lia.
    destruct Hd as [[-> ->]|]; [|lia]. destruct (nd_fun _ _ _ _ _ Nz Nj). lia.
  - destruct TO as (y & r & d & e & z & dz & -> & Ni & Ny & -> & Nz & Hz & Hm). unfold tstep.
    destruct (nd_lt _ _ _ Ny) as [Hy _]. rewrite np_set_nat by lia.
    split.
    + split; [now rewrite upd_length|]. split.
      * intros k Hk. rewrite nth_error_upd. destruct (Nat.eqb_spec y k) as [->|]; [|now apply MV].
        exfalso. inversion Ny; subst. rewrite Hk in H0. injection H0 as H0. lia.
      * intros k rk dk Nk. destruct (Nat.eqb_spec y k) as [<-|N].
        -- destruct (nd_fun _ _ _ _ _ Ny Nk) as [<- <-]. exists z, dz. split; [|split; [exact Nz|right; lia]].
           rewrite nth_error_upd, Nat.eqb_refl. replace (Nat.ltb y (length mem)) with true by lia. reflexivity.
        -- destruct (MN k rk dk Nk) as (j & dj & Ej & Nj & Hd). exists j, dj. split; [|auto].
           rewrite nth_error_upd. replace (Nat.eqb y k) with false by lia. exact Ej.
    + split; [|right; lia]. exists y, r, d, e. repeat split; auto. lia.
  - destruct TO as (y & r & d & e & -> & Ni & Ny & Hm). unfold tstep.
    destruct (nd_lt _ _ _ Ny) as [Hy _]. rewrite mem_get by auto.
    destruct (MN y r (S d) Ny) as (j & dj & Ej & Nj & Hd). rewrite Ej.
    split; [exact MO|]. split; [|right; lia]. exists j, r, dj, e. repeat split; auto. lia.
  - simpl. split; [exact MO|]. split; [exact TO|eauto].
  - contradiction.
Qed.

Definition sys_ok (st : list Z * list thread) (m : nat -> nat) : Prop :=
  mem_ok (fst st) /\ length (snd st) = n /\
  forall i t, nth_error (snd st) i = Some t -> th_ok i t (m i) /\ ((exists r, t = TDone r) \/ (0 < m i)%nat).

Lemma not_done_pos i t : th_ok i t 0 -> exists r, t = TDone r.
Proof.
  destruct t; cbn [th_ok]; eauto.
  - intros [_ H]. lia.
  - intros (y & r & d & e & A & B & C & D). lia.
  - intros (y & r & d & e & A & B & C & D). lia.
  - intros (y & r & d & e & z & dz & A & B & C & D & E & F & K). lia.
  - intros (y & r & d & e & z & dz & A & B & C & D & E & F & K). lia.
  - intros (y & r & d & e & A & B & C & D). lia.
  - contradiction.
Qed.

Lemma run_ok sched : forall st m, sys_ok st m ->
  sys_ok (run_sched sched st) (fun i => (m i - count_occ Nat.eq_dec sched i)%nat).
Proof.
  induction sched as [|t rest IH]; intros st m (MO & L & TH); cbn [run_sched fold_left count_occ].
  - split; [exact MO|]. split; [exact L|]. intros i th Hi. rewrite Nat.sub_0_r. now apply TH.
  - assert (H : sys_ok (sstep st t) (fun i => if Nat.eq_dec t i then (m i - 1)%nat else m i)).
    { destruct st as [mem ths]. unfold sstep. cbn [fst snd] in *.
      destruct (nth_error ths t) as [th|] eqn:Et.
      - destruct (TH t th Et) as [TO _].
        assert (Ht : (t < n)%nat) by (rewrite <- L; apply nth_error_Some; congruence).
        pose proof (tstep_ok t th (m t) mem Ht MO TO) as S. destruct (tstep mem th) as [mem' th'].
        destruct S as (MO' & TO' & _). split; [exact MO'|]. cbn [fst snd]. split; [now rewrite upd_length|].
        intros i th0 Hi. rewrite nth_error_upd in Hi. destruct (Nat.eq_dec t i) as [<-|N].
        + rewrite Nat.eqb_refl in Hi. replace (Nat.ltb t (length ths)) with true in Hi by lia.
          injection Hi as <-. split; [exact TO'|]. destruct (m t - 1)%nat as [|q] eqn:Eq; [|right; lia].
          left. eapply not_done_pos; eauto.
        + replace (Nat.eqb t i) with false in Hi by lia. now apply TH.
      - split; [exact MO|]. split; [exact L|]. cbn [fst snd]. intros i th0 Hi.
        destruct (Nat.eq_dec t i) as [<-|N]; [congruence|]. now apply TH. }
    specialize (IH _ _ H). destruct IH as (A & B & C). split; [exact A|]. split; [exact B|].
    intros i th Hi. destruct (C i th Hi) as [C1 C2]. destruct (Nat.eq_dec t i) as [<-|N].
    + replace (m t - S (count_occ Nat.eq_dec rest t))%nat with (m t - 1 - count_occ Nat.eq_dec rest t)%nat by lia. auto.
    + auto.
Qed.

Lemma init_ok : sys_ok (p0, start_threads n) (fun _ => 5 * n + 2)%nat.
Proof.
  split; [|split].
  - split; [reflexivity|]. split; [auto|]. intros i r d C. inversion C as [j E|k j q s E N C']; subst.
    + exists r, 0%nat. split; [exact E|]. split; [exact C|]. left; auto.
    + exists q, k. split; [exact E|]. split; [exact C'|]. right. lia.
  - unfold start_threads. cbn [snd]. now rewrite map_length, seq_length.
  - cbn [snd]. intros i t Hi. unfold start_threads in Hi. rewrite nth_error_map in Hi.
    destruct (nth_error (seq 0 n) i) as [j|] eqn:Ej; [|discriminate]. injection Hi as <-.
    assert (Hl : (i < length (seq 0 n))%nat) by (apply nth_error_Some; congruence).
    pose proof (nth_error_nth _ _ 0%nat Ej) as E. rewrite seq_length in Hl. rewrite seq_nth in E by exact Hl.
    split; [split; [lia|lia]|right; lia].
Qed.

Theorem compress_concurrent (sched : list nat) :
  let '(mem, ths) := run_sched sched (p0, start_threads n) in
  (* the forest keeps its roots at every moment *)
  (forall i r, reaches p0 i r -> reaches mem i r) /\
  (* no thread ever crashes, and a finished thread has its root *)
  (forall i t, nth_error ths i = Some t -> t <> TCrash) /\
  (forall i r, nth_error ths i = Some (TDone r) ->
     (r = -1 /\ nth_error p0 i = Some (-1)) \/ (exists k, r = Z.of_nat k /\ reaches p0 i k)) /\
  (* a thread that has been scheduled 5n+2 times has finished *)
  (forall i, (i < n)%nat -> (5 * n + 2 <= count_occ Nat.eq_dec sched i)%nat ->
     exists r, nth_error ths i = Some (TDone r)).
Proof.
  pose proof (run_ok sched _ _ init_ok) as H. destruct (run_sched sched (p0, start_threads n)) as [mem ths].
  destruct H as (MO & L & TH). cbn [fst snd] in *. split; [|split; [|split]].
  - intros i r R. destruct (reaches_climb _ _ _ R) as (d & C). destruct MO as (_ & _ & MN).
    revert i R C. induction d as [d IH] using lt_wf_ind. intros i R C.
    destruct (MN i r d C) as (j & dj & Ej & Nj & [[-> ->]|LT]).
    + pose proof (nd_root _ _ _ C eq_refl). subst. now constructor.
    + eapply reaches_step; [exact Ej|]. eapply IH; [exact LT|eapply climb_reaches; exact Nj|exact Nj].
  - intros i t Hi ->. destruct (TH i _ Hi) as [F _]. exact F.
  - intros i r Hi. destruct (TH i _ Hi) as [F _]. destruct F as [F|(k & e & -> & C)]; [now left|].
    right. exists k. split; [reflexivity|]. eapply climb_reaches; exact C.
  - intros i Hi Hc. destruct (nth_error ths i) as [t|] eqn:Et.
    + destruct (TH i t Et) as [F [(r & ->)|P]]; [eauto|]. lia.
    + exfalso. apply nth_error_None in Et. lia.
Qed.
End Conc.

Lemma nth_ext_error {A} (l1 : list A) : forall l2, (forall i, nth_error l1 i = nth_error l2 i) -> l1 = l2.
Proof.
  induction l1 as [|a l1 IH]; intros [|b l2] H; auto.
  - specialize (H 0%nat). discriminate.
  - specialize (H 0%nat). discriminate.
  - f_equal; [specialize (H 0%nat); now injection H|]. apply IH. intros i. exact (H (S i)).
Qed.

Theorem compress_schedule_independent p0 s1 s2 : good_pointers p0 ->
  (forall i, (i < length p0)%nat -> (5 * length p0 + 2 <= count_occ Nat.eq_dec s1 i)%nat) ->
  (forall i, (i < length p0)%nat -> (5 * length p0 + 2 <= count_occ Nat.eq_dec s2 i)%nat) ->
  snd (run_sched s1 (p0, start_threads (length p0))) = snd (run_sched s2 (p0, start_threads (length p0))).
Proof.
  intros G H1 H2. pose proof (compress_concurrent p0 G s1) as C1. pose proof (compress_concurrent p0 G s2) as C2.
  cbv zeta in *.
  assert (LEN : forall s st, length (snd (run_sched s st)) = length (snd st)).
  { clear. induction s as [|t s IH]; intros [m ths]; [reflexivity|]. unfold run_sched in *. cbn [fold_left].
    rewrite IH. unfold sstep. destruct (nth_error ths t); [|reflexivity]. destruct (tstep m t0). cbn. apply upd_length. }
  pose proof (LEN s1 (p0, start_threads (length p0))) as L1. pose proof (LEN s2 (p0, start_threads (length p0))) as L2.
  destruct (run_sched s1 _) as [m1 t1]. destruct (run_sched s2 _) as [m2 t2]. cbn [snd] in *.
  destruct C1 as (_ & _ & D1 & F1). destruct C2 as (_ & _ & D2 & F2).
  apply (nth_ext_error). intros i.
  destruct (Nat.lt_ge_cases i (length p0)) as [Hi|Hi].
  - destruct (F1 i Hi (H1 i Hi)) as (r1 & E1). destruct (F2 i Hi (H2 i Hi)) as (r2 & E2). rewrite E1, E2.
    do 2 f_equal. destruct (D1 i r1 E1) as [[-> A1]|(k1 & -> & R1)]; destruct (D2 i r2 E2) as [[-> A2]|(k2 & -> & R2)]; auto.
    + exfalso. apply reaches_active in R2 as (x & X & Y). congruence.
    + exfalso. apply reaches_active in R1 as (x & X & Y). congruence.
    + f_equal. eapply reaches_fun; eauto.
  - assert (LS : length (start_threads (length p0)) = length p0).
    { unfold start_threads. now rewrite map_length, seq_length. }
    transitivity (@None thread); [|symmetry]; apply nth_error_None; lia.
Qed.
