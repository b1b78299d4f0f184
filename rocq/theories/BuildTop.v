(** From the connections of the basins to the bifurcation graph. *)
From Coq Require Import QArith Lqa Sorted.
From Verif Require Import Base GridModel RootsModel UnionModel LabelsModel NodesModel NodesSpec NodesProofs NodesEdit NodesTop NodesProps DictModel SplitModel SplitSpec SplitProofs SplitTop BuildModel BuildProofs.
From Verif Require Import UnionSpec BifModel BifSpec BifTop.
Local Open Scope Z_scope.

(** The graph shows the domains [n], in this order. *)
Record shows_domains (n : news) (f : full) : Prop := {
  sd_wf : well_formed (f_graph f);
  sd_nodes : g_nodes (f_graph f) = seq 0 (length n);
  sd_node : forall k E a, nth_error n k = Some (E, a) ->
    let v := g_heap (f_graph f) k in
    n_key v = Z.of_nat k /\ (n_red v = true <-> has_child n k) /\ n_basins v = m_basins E /\ (n_infinite v = true <-> 0 < m_dim E) /\
    n_min v = m_min E /\ n_max v = m_max E /\
    (m_parent E = -1 -> n_parent v = None) /\ (forall p, m_parent E = Z.of_nat p -> n_parent v = Some p) /\
    StronglySorted lt (n_children v) /\ (forall c, In c (n_children v) <-> exists F b, nth_error n c = Some (F, b) /\ m_parent F = Z.of_nat k);
  sd_pay : forall k E a, nth_error n k = Some (E, a) -> 
    y_dim (f_pay f k) = m_dim E /\ y_atoms (f_pay f k) = map Z.of_nat a /\ exists s, y_subtype (f_pay f k) = Some s /\ kind n k E a s
}.
Lemma sorted_filter (f : nat -> bool) l : StronglySorted lt l -> StronglySorted lt (filter f l).
Proof.
  induction 1 as [|x l SS IH F]; cbn [filter]; [constructor|]. destruct (f x); [|exact IH]. constructor; [exact IH|]. rewrite Forall_forall in F |- *. intros y Y. apply filter_In in Y as [Y _]. now apply F.
Qed.
Lemma sorted_seq m : forall s, StronglySorted lt (seq s m).
Proof. induction m as [|m IH]; intros s; cbn [seq]; constructor; [apply IH|]. apply Forall_forall. intros x X. apply in_seq in X. lia. Qed.

Lemma construct_ok n type maxima charges volumes : nested n -> exists f, construct n type maxima charges volumes = Done f /\ shows_domains n f.
Proof.
  intros N. set (f0 := Full empty_graph (fun _ => no_payload) type maxima charges volumes). assert (S0 : shown n 0 f0). { constructor; try reflexivity; [exact C39_empty| |]; intros; lia. }
  destruct (add_features_ok n N 0 (length n) f0 eq_refl S0) as (f & E & SH). unfold construct. fold f0. change (@nil Z) with (map Z.of_nat (seq 0 0)). rewrite E. cbn [obind]. eexists. split; [reflexivity|].
  set (l := filter (fun i => n_red (g_heap (f_graph f) i)) (g_nodes (f_graph f))). assert (ND : NoDup l) by (apply NoDup_filter, (wf_nodup _ (sh_wf _ _ _ SH))).
  destruct (set_subtypes_spec l ND f) as (G & P & S1 & S2). set (f' := fold_left set_subtype l f) in *.
  assert (IN : forall k, In k l <-> (k < length n)%nat /\ n_red (g_heap (f_graph f) k) = true) by (intros k; unfold l; rewrite filter_In, (sh_nodes _ _ _ SH), in_seq; split; intros [A B]; split; auto; lia).
  constructor; rewrite ?G.
  - apply (sh_wf _ _ _ SH).
  - apply (sh_nodes _ _ _ SH).
  - intros k D a H. pose proof (nth_error_len _ _ _ H) as LK. destruct (sh_node _ _ _ SH k D a LK H) as (d & HN). cbv zeta. rewrite HN. cbn [n_key n_red n_basins n_infinite n_min n_max n_parent n_children].
    split; [reflexivity|]. split; [apply has_child_spec|]. split; [reflexivity|]. split; [apply Z.ltb_lt|]. do 2 (split; [reflexivity|]). unfold parent_ref. split; [intros ->; reflexivity|]. split; [intros p ->; destruct (Z.eqb_spec (Z.of_nat p) (-1)); [lia|now rewrite Nat2Z.id]|]. split; [apply sorted_filter, sorted_seq|].
    intros c. unfold kids. rewrite filter_In, in_seq, Z.eqb_eq. split.
    + intros [LC X]. destruct (nth_error n c) as [[F b]|] eqn:EC; [|apply nth_error_None in EC; lia]. exists F, b. split; [reflexivity|]. rewrite (nth_error_nth n c (dm0, []) EC) in X. exact X.
    + intros (F & b & EC & X). pose proof (nth_error_len _ _ _ EC). split; [lia|]. now rewrite (nth_error_nth n c (dm0, []) EC).
  - intros k D a H. pose proof (nth_error_len _ _ _ H) as LK. destruct (sh_node _ _ _ SH k D a LK H) as (d & HN). destruct (sh_pay _ _ _ SH k D a LK H) as (Y1 & Y2 & Y3). destruct (P k) as [-> ->]. split; [exact Y1|]. split; [exact Y2|].
    destruct (existsb (fun e : domain * list nat => m_parent (fst e) =? Z.of_nat k) n) eqn:HC.
    + pose proof HC as HC'. apply has_child_spec in HC'. rewrite (S2 k) by (apply IN; rewrite HN; auto). unfold set_subtype. rewrite HN. cbn [n_parent n_basins]. unfold parent_ref. destruct (Z.eqb_spec (m_parent D) (-1)) as [PD|PD].
      * exists sub_root. split; [cbn [set_pay f_pay]; now rewrite Nat.eqb_refl|]. split; [contradiction|]. split; [reflexivity|]. intros _ p F b X. lia.
      * destruct N as [PA _]. destruct (PA k D a H) as [?|(p & F & b & EP & PK & EF & _)]; [congruence|]. rewrite EP, Nat2Z.id. destruct (sh_node _ _ _ SH p F b ltac:(lia) EF) as (dp & HP). rewrite HP. cbn [n_basins]. destruct (sh_pay _ _ _ SH p F b ltac:(lia) EF) as (Z1 & Z2 & _). rewrite Z1, Z2, Y1, Y2, !map_length.
        assert (KD : forall s, (length (m_basins F) <> length (m_basins D) -> s = sub_dom) -> (length (m_basins F) = length (m_basins D) -> m_dim F <> m_dim D -> s = sub_dim) ->
          (length (m_basins F) = length (m_basins D) -> m_dim F = m_dim D -> length b <> length a -> s = sub_atom) -> (length (m_basins F) = length (m_basins D) -> m_dim F = m_dim D -> length b = length a -> s = sub_reducible) -> kind n k D a s).
        { intros s K1 K2 K3 K4. split; [contradiction|]. split; [congruence|]. intros _ p' F' b' EP' EF'. assert (p' = p) as -> by lia. rewrite EF in EF'. injection EF' as <- <-. auto. }
        destruct (Nat.eqb_spec (length (m_basins F)) (length (m_basins D))) as [LB|LB]; cbn [negb]; [|exists sub_dom; split; [cbn [set_pay f_pay]; now rewrite Nat.eqb_refl|apply KD; try reflexivity; intros; contradiction]].
        destruct (Z.eqb_spec (m_dim F) (m_dim D)) as [LD|LD]; cbn [negb]; [|exists sub_dim; split; [cbn [set_pay f_pay]; now rewrite Nat.eqb_refl|apply KD; try reflexivity; intros; contradiction]].
        destruct (Nat.eqb_spec (length b) (length a)) as [LA|LA]; cbn [negb]; [|exists sub_atom; split; [cbn [set_pay f_pay]; now rewrite Nat.eqb_refl|apply KD; try reflexivity; intros; contradiction]].
        exists sub_reducible. split; [exact Y3|apply KD; try reflexivity; intros; contradiction].
    + assert (HC' : ~ has_child n k) by (intros X; apply has_child_spec in X; congruence). rewrite (S1 k) by (intros X; apply IN in X as [_ X]; rewrite HN in X; cbn [n_red] in X; congruence).
      exists sub_point. split; [exact Y3|]. split; [reflexivity|]. split; intros; contradiction.
Qed.

(** ** The domains split by atoms are nested *)
Definition nested_domains (doms : list domain) : Prop :=
  (forall d D q P, nth_error doms d = Some D -> m_parent D = Z.of_nat q -> nth_error doms q = Some P -> incl (m_basins D) (m_basins P)) /\
  (forall d d' D D' x, nth_error doms d = Some D -> nth_error doms d' = Some D' -> d <> d' -> m_parent D = m_parent D' -> In x (m_basins D) -> ~ In x (m_basins D')).
Lemma split_nested doms n origin : nested_domains doms -> length origin = length n -> (forall k d, nth_error origin k = Some d -> (d < length doms)%nat) -> chained doms n origin -> nested n.
Proof.
  intros (ND1 & ND2) L R CH.
  assert (GET : forall k E a, nth_error n k = Some (E, a) -> exists d D, nth_error doms d = Some D /\ version n origin d k E a).
  { intros k E a H. destruct (nth_error origin k) as [d|] eqn:OK; [|apply nth_error_None in OK; apply nth_error_len in H; lia]. destruct (nth_error doms d) as [D|] eqn:ED; [|apply nth_error_None in ED; apply R in OK; lia]. exists d, D. split; [exact ED|split; assumption]. }
  split.
  - intros k E a H. destruct (GET k E a H) as (d & D & ED & V). destruct (CH d D k E a ED V) as (BE & _ & _ & _ & [(j & G & b & VG & JK & _ & PE & _)|(_ & _ & [[_ PE]|(q & p & G & b & PD & VG & _ & PK & PE & _)])]).
    + right. exists j, G, b. split; [exact PE|]. split; [exact JK|]. split; [now destruct VG|]. destruct (CH d D j G b ED VG) as (BG & _). rewrite BE, BG. apply incl_refl.
    + now left.
    + right. exists p, G, b. split; [exact PE|]. split; [exact PK|]. destruct VG as [VG VO]. split; [exact VG|]. destruct (nth_error doms q) as [P|] eqn:EQ; [|apply nth_error_None in EQ; apply R in VO; lia]. destruct (CH q P p G b EQ (conj VG VO)) as (BG & _). rewrite BE, BG. now apply (ND1 d D q P).
  - intros k k' E E' a a' x H H' NK PE X X'. destruct (GET k E a H) as (d & D & ED & V). destruct (GET k' E' a' H') as (d' & D' & ED' & V').
    destruct (CH d D k E a ED V) as (BE & _ & _ & _ & CE). destruct (CH d' D' k' E' a' ED' V') as (BE' & _ & _ & _ & CE'). rewrite BE in X. rewrite BE' in X'.
    destruct V as [_ V], V' as [_ V'].
    destruct CE as [(j & G & b & [_ VG] & JK & NX & PJ & _)|(FI & _ & CE)], CE' as [(j' & G' & b' & [_ VG'] & JK' & NX' & PJ' & _)|(FI' & _ & CE')].
    + assert (j' = j) as -> by lia. assert (d' = d) as -> by congruence. destruct (Nat.lt_ge_cases k k') as [LT|GE]; [specialize (NX' k V LT); lia|specialize (NX k' V' ltac:(lia)); lia].
    + destruct CE' as [[_ Y]|(q & p & F & c & _ & [_ VF] & LA & _ & Y & _)]; [lia|]. assert (p = j) as -> by lia. assert (q = d) as -> by congruence. specialize (LA k V). lia.
    + destruct CE as [[_ Y]|(q & p & F & c & _ & [_ VF] & LA & _ & Y & _)]; [lia|]. assert (p = j') as -> by lia. assert (q = d') as -> by congruence. specialize (LA k' V'). lia.
    + assert (DD : d <> d'). { intros <-. specialize (FI k' V'). specialize (FI' k V). lia. }
      refine (ND2 d d' D D' x ED ED' DD _ X X'). destruct CE as [[Y1 Y2]|(q & p & F & c & Y1 & [_ VF] & _ & _ & Y2 & _)], CE' as [[Z1 Z2]|(q' & p' & F' & c' & Z1 & [_ VF'] & _ & _ & Z2 & _)]; try lia. assert (p' = p) as -> by lia. assert (q' = q) as -> by congruence. congruence.
Qed.

(** ** The domains of [find_domain_bifurcations] *)
(** The lists passed on: the same domains; where no upper value was stored, any number may be there. *)
Definition passed_on (recs : list bdom) (doms : list domain) : Prop :=
  Forall2 (fun d D => m_basins D = b_basins d /\ m_min D = b_min d /\ m_dim D = b_dim d /\ m_parent D = b_parent d /\ forall v, b_max d = Some v -> m_max D = v) recs doms.
Lemma passed_nth recs doms : passed_on recs doms -> forall d D, nth_error doms d = Some D -> exists r, nth_error recs d = Some r /\ m_basins D = b_basins r /\ m_min D = b_min r /\ m_dim D = b_dim r /\ m_parent D = b_parent r /\ forall v, b_max r = Some v -> m_max D = v.
Proof.
  induction 1 as [|r D recs doms H P IH]; intros [|d] E X; try discriminate; cbn in X; [injection X as <-; exists r; auto|]. now apply IH.
Qed.
Lemma passed_back recs doms : passed_on recs doms -> forall r, In r recs -> exists d D, nth_error doms d = Some D /\ m_basins D = b_basins r.
Proof.
  induction 1 as [|r D recs doms H P IH]; intros x X; [destruct X|]. destruct X as [<-|X]; [exists 0%nat, D; split; [reflexivity|apply H]|]. destruct (IH x X) as (d & D' & E & B). exists (S d), D'. auto.
Qed.
Lemma forest_tight cs maxref min_data recs doms : forest cs maxref min_data recs -> (forall i j v, In (i, j, v) cs -> (min_data < v)%Q) -> passed_on recs doms -> tight doms /\ nested_domains doms.
Proof.
  intros F MD P. pose proof (passed_nth recs doms P) as GET. split; [|split].
  - intros d D H. destruct (GET d D H) as (r & ER & B & M & DI & PA & MX). destruct (Z.eq_dec (b_parent r) (-1)) as [N|N]; [left; congruence|]. right. destruct (fo_parent _ _ _ _ F d r ER N) as (p & dp & PP & PL & EP & _ & _ & _ & MP & LE & LT).
    assert (PD : exists Pd, nth_error doms p = Some Pd) by (destruct (nth_error doms p) eqn:X; [eauto|apply nth_error_None in X; apply nth_error_len in H; lia]). destruct PD as (Pd & EPd). destruct (GET p Pd EPd) as (r' & ER' & B' & M' & DI' & PA' & MX'). rewrite EP in ER'. injection ER' as <-. exists p, Pd. split; [congruence|]. split; [exact EPd|]. split; [exact PL|]. rewrite (MX' _ MP), M', M. split; [|apply Qeq_refl].
    destruct (Z.eq_dec (b_parent dp) (-1)) as [N'|N']; [|now apply LT]. destruct (fo_root _ _ _ _ F p dp EP N') as [-> _]. destruct (fo_value _ _ _ _ F r (nth_error_In _ _ ER) N) as (i & j & X). now apply (MD i j).
  - intros d D q Pd H PQ EQ. destruct (GET d D H) as (r & ER & B & _ & _ & PA & _). destruct (GET q Pd EQ) as (r' & ER' & B' & _). destruct (fo_parent _ _ _ _ F d r ER ltac:(lia)) as (p & dp & PP & PL & EP & IN & _). assert (p = q) as -> by lia. rewrite EP in ER'. injection ER' as <-. now rewrite B, B'.
  - intros d d' D D' x H H' N PE X X'. destruct (GET d D H) as (r & ER & B & _ & _ & PA & _). destruct (GET d' D' H') as (r' & ER' & B' & _ & _ & PA' & _). rewrite B in X. rewrite B' in X'. exact (fo_apart _ _ _ _ F d r d' r' x ER ER' N ltac:(congruence) X X').
Qed.
