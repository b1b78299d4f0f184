From Verif Require Import Base GridModel NeighModel RootsModel RootsSpec RootsProofs
  UnionModel UnionSpec UnionProofs ShiftModel ShiftSpec ShiftProofs.
From Coq Require Import ZifyBool ZifyNat.

Definition is_root (f : sforest) (i : nat) : Prop := nth_error (f_par f) i = Some (Z.of_nat i).

Lemma same_forest_root p q i : same_forest p q -> (nth_error q i = Some (Z.of_nat i) <-> nth_error p i = Some (Z.of_nat i)).
Proof.
  intros (L & D & R). split; intros H.
  - assert (X : reaches p i i) by (apply R; now constructor). now apply reaches_root in X.
  - assert (X : reaches q i i) by (apply R; now constructor). now apply reaches_root in X.
Qed.

(** Effect of one shifted union on roots and on the root mask. *)
Lemma union_mask fuel R A n f a b s f' : s_inv R A n f -> (n <= fuel)%nat -> (a < n)%nat -> (b < n)%nat ->
  union_with_shift fuel f (Z.of_nat a) (Z.of_nat b) s = Done f' ->
  (connected (pr R) a b /\ f_mask f' = f_mask f /\ forall i, is_root f' i <-> is_root f i) \/
  (~ connected (pr R) a b /\ exists u v, u <> v /\ is_root f u /\ is_root f v /\
     ((connected (pr R) a u /\ connected (pr R) b v) \/ (connected (pr R) b u /\ connected (pr R) a v)) /\
     (forall i, is_root f' i <-> is_root f i /\ i <> u) /\
     forall j, nth j (f_mask f') false = if Nat.eqb j u then false else if Nat.eqb j v then true else nth j (f_mask f) false).
Proof.
  intros I Hf Ha Hb. pose proof I as [I1 I2 I3 I4 (G & AC & BD & CC) I6 I7 I8 I9].
  destruct (find_shift_correct fuel (f_par f) (f_off f) a ltac:(congruence) G (AC a ltac:(lia)) ltac:(lia))
    as (ra & ca & p1 & o1 & Ra & F1 & _ & SF1 & G1).
  pose proof SF1 as ((L1 & D1 & R1) & LO1 & RP1).
  assert (A1 : active p1 b) by (eapply same_forest_active; [split; [exact L1|split; eauto]|apply AC; lia]).
  destruct (find_shift_correct fuel p1 o1 b ltac:(congruence) G1 A1 ltac:(lia))
    as (rb & cb & p2 & o2 & Rb & F2 & _ & SF2 & G2).
  pose proof (same_forest_o_trans _ _ _ _ _ _ SF1 SF2) as SF.
  unfold union_with_shift. rewrite F1. cbn [obind]. rewrite F2. cbn [obind].
  assert (Rb0 : reaches (f_par f) b rb) by (apply R1; eapply rpos_reaches; exact Rb).
  assert (Ra0 : reaches (f_par f) a ra) by (eapply rpos_reaches; exact Ra).
  destruct SF as (SF & LO & RP). pose proof (fun i => same_forest_root _ _ i SF) as RT.
  assert (CR : forall x r, (x < n)%nat -> reaches (f_par f) x r -> connected (pr R) x r /\ (r < n)%nat).
  { intros x r Hx X. pose proof (reaches_root _ _ _ X) as Xr.
    assert (Lr : (r < n)%nat) by (rewrite <- I1; apply nth_error_Some; congruence).
    split; [|exact Lr]. apply I7, CC; [lia|lia|]. exists r. split; [exact X|now constructor]. }
  destruct (CR a ra Ha Ra0) as [Ca La]. destruct (CR b rb Hb Rb0) as [Cb Lb].
  pose proof (reaches_root _ _ _ Ra0) as Hra. pose proof (reaches_root _ _ _ Rb0) as Hrb.
  destruct (Z.eqb_spec (Z.of_nat ra) (Z.of_nat rb)) as [E|N].
  - assert (ra = rb) by lia. subst rb. intros [= <-]. left. split; [|split].
    + eapply conn_trans; [exact Ca|]. now apply conn_sym.
    + reflexivity.
    + exact RT.
  - assert (NE : ra <> rb) by lia. intros H. right. split.
    { intros C. apply I7 in C. apply CC in C; [|lia|lia]. destruct C as (r & X & Y).
      apply NE. rewrite (reaches_fun _ _ _ Ra0 _ X). symmetry. eapply reaches_fun; eauto. }
    destruct SF as (L & D & RR).
    rewrite (np_get_nat (f_size f) ra), (np_get_nat (f_size f) rb) in H by lia.
    rewrite (nth_error_nth_lt (f_size f) ra 0), (nth_error_nth_lt (f_size f) rb 0) in H by lia. cbn [oget obind] in H.
    assert (ROOT : forall u v, (u < n)%nat -> u <> v -> forall i,
       nth_error (upd p2 u (Z.of_nat v)) i = Some (Z.of_nat i) <-> nth_error (f_par f) i = Some (Z.of_nat i) /\ i <> u).
    { intros u v Hu NUV i. rewrite nth_error_upd. destruct (Nat.eqb_spec u i) as [->|NI].
      - replace (Nat.ltb i (length p2)) with true by lia. cbn [andb]. split; [intros [= X]; lia|intros [_ X]; congruence].
      - cbn [andb]. rewrite RT. split; [intros X; split; [exact X|congruence]|intros [X _]; exact X]. }
    destruct (nth ra (f_size f) 0 <? nth rb (f_size f) 0).
    + rewrite (np_set_nat p2 ra) in H by lia. cbn [oget obind] in H. rewrite (np_set_nat o2 ra) in H by lia. cbn [oget obind] in H.
      rewrite (np_set_nat (f_size f) rb) in H by lia. cbn [oget obind] in H.
      destruct (set_mask_spec (f_mask f) rb true ltac:(lia)) as (m1 & E1 & Lm1 & M1). rewrite E1 in H. cbn [obind] in H.
      destruct (set_mask_spec m1 ra false ltac:(lia)) as (m2 & E2 & Lm2 & M2). rewrite E2 in H. cbn [obind] in H.
      injection H as <-. exists ra, rb. unfold is_root. cbn [f_par f_mask]. split; [exact NE|]. split; [exact Hra|]. split; [exact Hrb|].
      split; [now left|]. split; [now apply ROOT|]. intros j. now rewrite M2, M1.
    + rewrite (np_set_nat p2 rb) in H by lia. cbn [oget obind] in H. rewrite (np_set_nat o2 rb) in H by lia. cbn [oget obind] in H.
      rewrite (np_set_nat (f_size f) ra) in H by lia. cbn [oget obind] in H.
      destruct (set_mask_spec (f_mask f) ra true ltac:(lia)) as (m1 & E1 & Lm1 & M1). rewrite E1 in H. cbn [obind] in H.
      destruct (set_mask_spec m1 rb false ltac:(lia)) as (m2 & E2 & Lm2 & M2). rewrite E2 in H. cbn [obind] in H.
      injection H as <-. exists rb, ra. unfold is_root. cbn [f_par f_mask]. split; [congruence|]. split; [exact Hrb|]. split; [exact Hra|].
      split; [now right|]. split; [apply ROOT; [exact Lb|congruence]|]. intros j. now rewrite M2, M1.
Qed.

(** Forest, requests and the set of voxels seen so far. *)
Record m_inv (R : list (nat * nat * offset)) (seen : nat -> Prop) (n : nat) (f : sforest) : Prop := {
  mi_seen : forall a b s, In (a, b, s) R -> seen a /\ seen b;
  mi_lt : forall x, seen x -> (x < n)%nat;
  mi_mask : forall i, nth i (f_mask f) false = true <-> is_root f i /\ exists x, seen x /\ connected (pr R) x i
}.

Lemma connected_mentioned R x y : connected (pr R) x y -> x = y \/ ((exists z s, In (x, z, s) R \/ In (z, x, s) R) /\ (exists z s, In (y, z, s) R \/ In (z, y, s) R)).
Proof.
  induction 1 as [x|x y H|x y H IH|x y z H1 IH1 H2 IH2].
  - now left.
  - right. unfold pr in H. apply in_map_iff in H as ([[a b] s] & E & Hi). cbn in E. injection E as -> ->. split; eauto.
  - destruct IH as [->|[P Q]]; [now left|]. right. now split.
  - destruct IH1 as [->|[P Q]]; [exact IH2|]. destruct IH2 as [<-|[P' Q']]; [right; now split|]. right. now split.
Qed.

Lemma root_unique R A n f i j : s_inv R A n f -> is_root f i -> is_root f j -> connected (pr R) i j -> i = j.
Proof.
  intros [I1 I2 I3 I4 (G & AC & BD & CC) I6 I7 I8 I9] Hi Hj C. unfold is_root in *.
  assert (Li : (i < length (f_par f))%nat) by (apply nth_error_Some; congruence).
  assert (Lj : (j < length (f_par f))%nat) by (apply nth_error_Some; congruence).
  apply I7 in C. apply CC in C; [|exact Li|exact Lj]. destruct C as (r & X & Y).
  rewrite (reaches_fun _ _ _ (reaches_end _ _ Hi) _ X). symmetry. eapply reaches_fun; [apply reaches_end, Hj|exact Y].
Qed.

Lemma connected_app_split E x y : forall u v, connected (E ++ [(x, y)]) u v ->
  connected E u v \/ (connected E u x /\ connected E y v) \/ (connected E u y /\ connected E x v).
Proof.
  induction 1 as [z|u v H|u v H IH|u v w H1 IH1 H2 IH2].
  - left. constructor.
  - apply in_app_or in H as [H|[[= <- <-]|[]]]; [left; now constructor|]. right. left. split; constructor.
  - destruct IH as [?|[[? ?]|[? ?]]]; [left; now apply conn_sym| |]; right; [right|left]; split; now apply conn_sym.
  - pose proof (conn_trans E) as T. destruct IH1 as [A|[[A B]|[A B]]], IH2 as [C|[[C D]|[C D]]].
    + left. exact (T _ _ _ A C).
    + right. left. split; [exact (T _ _ _ A C)|exact D].
    + right. right. split; [exact (T _ _ _ A C)|exact D].
    + right. left. split; [exact A|exact (T _ _ _ B C)].
    + right. left. split; [exact A|exact D].
    + left. exact (T _ _ _ A D).
    + right. right. split; [exact A|exact (T _ _ _ B C)].
    + left. exact (T _ _ _ A D).
    + right. right. split; [exact A|exact D].
Qed.

Lemma m_inv_union fuel R A seen n f a b s : s_inv R A n f -> m_inv R seen n f -> (n <= fuel)%nat -> (a < n)%nat -> (b < n)%nat -> a <> b ->
  exists f' A', union_with_shift fuel f (Z.of_nat a) (Z.of_nat b) s = Done f' /\
    s_inv (R ++ [(a, b, s)]) A' n f' /\ incl A A' /\
    m_inv (R ++ [(a, b, s)]) (fun x => seen x \/ x = a \/ x = b) n f'.
Proof.
  intros I M Hf Ha Hb NAB.
  destruct (s_inv_union fuel R A n f a b s I Hf Ha Hb) as (f' & A' & E & I' & AC & _).
  exists f', A'. split; [exact E|]. split; [exact I'|]. split.
  { destruct AC as [[-> _]|[-> _]]; intros z Hz; [exact Hz|apply in_or_app; now left]. }
  destruct M as [M1 M0 M2]. split.
  { intros x y t H. apply in_app_or in H as [H|[[= <- <- <-]|[]]]; [apply M1 in H; tauto|auto]. }
  { intros x [H|[->| ->]]; auto. }
  intros i. rewrite pr_app.
  destruct (union_mask fuel R A n f a b s f' I Hf Ha Hb E) as [(C & EM & RT)|(NC & u & v & NUV & Ru & Rv & UV & RT & MK)].
  - rewrite EM, M2, RT. split; intros (Hr & x & Hx & Cx); (split; [exact Hr|]).
    + exists x. split; [now left|]. now apply connected_add_known.
    + apply connected_add_known in Cx; [|exact C]. destruct Hx as [Hx|Hx]; [eauto|].
      destruct (connected_mentioned _ _ _ C) as [?|[(z & t & P) (z' & t' & P')]]; [contradiction|].
      exists x. split; [|exact Cx]. destruct Hx as [->| ->].
      * destruct P as [P|P]; apply M1 in P; tauto.
      * destruct P' as [P'|P']; apply M1 in P'; tauto.
  - assert (UV' : connected (pr R ++ [(a, b)]) u v).
    { assert (AB : connected (pr R ++ [(a, b)]) a b) by (apply conn_edge, in_or_app; right; now left).
      assert (W : forall x y, connected (pr R) x y -> connected (pr R ++ [(a, b)]) x y).
      { intros x y. apply connected_mono. intros z Hz. apply in_or_app. now left. }
      destruct UV as [[X Y]|[X Y]]; apply W in X, Y; eauto using connected. }
    rewrite MK, RT. destruct (Nat.eqb_spec i u) as [->|Ni].
    { split; [discriminate|intros [[_ X] _]; congruence]. }
    destruct (Nat.eqb_spec i v) as [->|Nv].
    { split; [intros _|reflexivity]. split; [now split|].
      destruct UV as [[X Y]|[X Y]]; [exists b|exists a]; (split; [tauto|]);
        (eapply connected_mono; [|exact Y]; intros z Hz; apply in_or_app; now left). }
    rewrite M2. split.
    + intros (Hr & x & Hx & Cx). split; [now split|]. exists x. split; [now left|].
      eapply connected_mono; [|exact Cx]. intros z Hz. apply in_or_app. now left.
    + intros ((Hr & _) & x & Hx & Cx). split; [exact Hr|].
      assert (NIA : ~ connected (pr R) a i /\ ~ connected (pr R) b i).
      { destruct UV as [[X Y]|[X Y]]; split; intros Z.
        - apply Ni. apply (root_unique R A n f i u I Hr Ru). eapply conn_trans; [apply conn_sym; exact Z|exact X].
        - apply Nv. apply (root_unique R A n f i v I Hr Rv). eapply conn_trans; [apply conn_sym; exact Z|exact Y].
        - apply Nv. apply (root_unique R A n f i v I Hr Rv). eapply conn_trans; [apply conn_sym; exact Z|exact Y].
        - apply Ni. apply (root_unique R A n f i u I Hr Ru). eapply conn_trans; [apply conn_sym; exact Z|exact X]. }
      destruct NIA as [NA NB].
      apply connected_app_split in Cx as [Cx|[[_ Cx]|[_ Cx]]]; [|contradiction|contradiction].
      exists x. split; [|exact Cx]. destruct Hx as [Hx|[->| ->]]; [exact Hx|contradiction|contradiction].
Qed.

Lemma m_inv_find R seen n f q o : m_inv R seen n f -> same_forest_o (f_par f) (f_off f) q o ->
  m_inv R seen n {| f_par := q; f_off := o; f_size := f_size f; f_mask := f_mask f |}.
Proof.
  intros [M1 M0 M2] (SF & _). split; auto. intros i. cbn [f_mask]. rewrite M2. unfold is_root. cbn [f_par].
  now rewrite (same_forest_root _ _ i SF).
Qed.

Lemma init_m_inv n : m_inv [] (fun _ => False) n (shift_init n).
Proof.
  split.
  - intros a b s [].
  - intros x [].
  - intros i. cbn [shift_init f_mask]. rewrite nth_repeat_false. split; [discriminate|]. intros (_ & x & [] & _).
Qed.
