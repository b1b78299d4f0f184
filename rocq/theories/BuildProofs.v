(** The construction of the bifurcation graph. *)
From Coq Require Import QArith Lqa.
From Verif Require Import Base GridModel RootsModel UnionModel LabelsModel NodesModel NodesSpec NodesProofs NodesEdit NodesTop NodesProps DictModel SplitModel BuildModel.
Local Open Scope Z_scope.

(** Parents come first and contain the basins of their children, which do not share any. *)
Definition nested (n : news) : Prop :=
  (forall k E a, nth_error n k = Some (E, a) -> m_parent E = -1 \/
     exists p F b, m_parent E = Z.of_nat p /\ (p < k)%nat /\ nth_error n p = Some (F, b) /\ incl (m_basins E) (m_basins F)) /\
  (forall k k' E E' a a' x, nth_error n k = Some (E, a) -> nth_error n k' = Some (E', a') -> k <> k' -> m_parent E = m_parent E' ->
     In x (m_basins E) -> ~ In x (m_basins E')).
Definition has_child (n : news) (k : nat) : Prop := exists c F b, nth_error n c = Some (F, b) /\ m_parent F = Z.of_nat k.
Definition parent_ref (E : domain) : option nat := if m_parent E =? -1 then None else Some (Z.to_nat (m_parent E)).
(** The nodes with parent [k] among the first [m]. *)
Definition kids (n : news) (m k : nat) : list nat := filter (fun c => m_parent (fst (nth c n (dm0, []))) =? Z.of_nat k) (seq 0 m).

(** What the graph shows of the first [m] domains. *)
Record shown (n : news) (m : nat) (f : full) : Prop := {
  sh_wf : well_formed (f_graph f);
  sh_nodes : g_nodes (f_graph f) = seq 0 m;
  sh_next : g_next (f_graph f) = m;
  sh_keys : g_keys (f_graph f) = map (fun i => (Z.of_nat i, i)) (seq 0 m);
  sh_node : forall k E a, (k < m)%nat -> nth_error n k = Some (E, a) ->
    exists d, g_heap (f_graph f) k = Node (Z.of_nat k) (existsb (fun e : domain * list nat => m_parent (fst e) =? Z.of_nat k) n) (m_basins E) (0 <? m_dim E) (m_min E) (m_max E) d (parent_ref E) (kids n m k);
  sh_pay : forall k E a, (k < m)%nat -> nth_error n k = Some (E, a) -> y_dim (f_pay f k) = m_dim E /\ y_atoms (f_pay f k) = map Z.of_nat a /\
    y_subtype (f_pay f k) = Some (if existsb (fun e : domain * list nat => m_parent (fst e) =? Z.of_nat k) n then sub_reducible else sub_point)
}.
Lemma has_child_spec n k : existsb (fun e : domain * list nat => m_parent (fst e) =? Z.of_nat k) n = true <-> has_child n k.
Proof.
  rewrite existsb_exists. split.
  - intros ([F b] & I & E). apply In_nth_error in I as (c & I). apply Z.eqb_eq in E. now exists c, F, b.
  - intros (c & F & b & I & E). exists (F, b). split; [now apply nth_error_In in I|now apply Z.eqb_eq].
Qed.
Lemma max_seq m : forall s z, z < Z.of_nat s -> fold_left Z.max (map Z.of_nat (seq s m)) z = match m with O => z | _ => Z.of_nat (s + m - 1) end.
Proof.
  induction m as [|m IH]; intros s z H; [reflexivity|]. cbn [seq map fold_left]. rewrite Z.max_r by lia. rewrite IH by lia. destruct m; f_equal; lia.
Qed.
Lemma key_fresh m g : g_nodes g = seq 0 m -> g_keys g = map (fun i => (Z.of_nat i, i)) (seq 0 m) -> new_key g = Z.of_nat m.
Proof.
  intros N K. unfold new_key. rewrite N, K. destruct m as [|m]; [reflexivity|]. cbn [seq map fst]. rewrite map_map. cbn [fst]. rewrite max_seq by lia. destruct m; f_equal; lia.
Qed.
Lemma key_found m p : (p < m)%nat -> forall s, dict_get (map (fun i => (Z.of_nat i, i)) (seq s m)) (Z.of_nat (s + p)) = Some (s + p)%nat.
Proof.
  intros L. unfold dict_get. revert p L. induction m as [|m IH]; intros p L s; [lia|]. cbn [seq map find fst]. destruct (Z.eqb_spec (Z.of_nat s) (Z.of_nat (s + p))) as [E|E].
  - cbn. f_equal. lia.
  - destruct p as [|p]; [rewrite Nat.add_0_r in E; congruence|]. replace (s + S p)%nat with (S s + p)%nat by lia. apply IH. lia.
Qed.
Lemma kids_snoc n m k : kids n (S m) k = kids n m k ++ (if m_parent (fst (nth m n (dm0, []))) =? Z.of_nat k then [m] else []).
Proof. unfold kids. rewrite seq_S, filter_app. cbn [filter plus]. destruct (_ =? _); reflexivity. Qed.

Lemma filter_nil {A} (f : A -> bool) l : (forall x, In x l -> f x = false) -> filter f l = [].
Proof. induction l as [|x l IH]; intros H; [reflexivity|]. cbn [filter]. rewrite (H x) by now left. apply IH. intros y Y. apply H. now right. Qed.

Lemma add_feature_ok n m f : nested n -> (m < length n)%nat -> shown n m f ->
  exists f', add_feature n (f, map Z.of_nat (seq 0 m)) m = Done (f', map Z.of_nat (seq 0 (S m))) /\ shown n (S m) f'.
Proof.
  intros (PA & AP) L SH. destruct (nth_error n m) as [[E atoms]|] eqn:EM; [|apply nth_error_None in EM; lia]. pose proof (nth_error_nth n m (dm0, []) EM) as NM.
  assert (GET : forall k, (k < m)%nat -> exists F b d, nth_error n k = Some (F, b) /\ g_heap (f_graph f) k = Node (Z.of_nat k) (existsb (fun e : domain * list nat => m_parent (fst e) =? Z.of_nat k) n) (m_basins F) (0 <? m_dim F) (m_min F) (m_max F) d (parent_ref F) (kids n m k)).
  { intros k K. destruct (nth_error n k) as [[F b]|] eqn:EK; [|apply nth_error_None in EK; lia]. destruct (sh_node _ _ _ SH k F b K EK) as (d & H). eauto. }
  assert (PR : (if m_parent E =? -1 then Done None else obind (oget (np_get (map Z.of_nat (seq 0 m)) (m_parent E))) (fun key => key_node (f_graph f) (Some key))) = Done (parent_ref E)).
  { unfold parent_ref. destruct (Z.eqb_spec (m_parent E) (-1)) as [P|P]; [reflexivity|]. destruct (PA m E atoms EM) as [X|(p & F & b & EP & PM & _)]; [congruence|]. rewrite EP. unfold np_get. rewrite np_idx_pos by (rewrite map_length, seq_length; lia). rewrite Nat2Z.id, nth_error_map. rewrite (nth_error_nth_lt _ _ 0%nat) by (rewrite seq_length; lia). rewrite seq_nth by lia. cbn [option_map oget obind key_node plus]. rewrite (sh_keys _ _ _ SH). change p with (0 + p)%nat at 1. rewrite (key_found m p PM 0). reflexivity. }
  assert (ADM : admissible (f_graph f) (m_basins E) (parent_ref E)).
  { split.
    - intros p H. unfold parent_ref in H. destruct (Z.eqb_spec (m_parent E) (-1)) as [P|P]; [discriminate|]. injection H as <-. destruct (PA m E atoms EM) as [X|(p & F & b & EP & PM & EF & IN)]; [congruence|]. rewrite EP, Nat2Z.id. destruct (GET p PM) as (F' & b' & d & EF' & H). rewrite EF in EF'. injection EF' as <- <-. split; [rewrite (sh_nodes _ _ _ SH); apply in_seq; lia|]. unfold reducible, basins_of. rewrite H. cbn [n_red n_basins]. split; [apply has_child_spec; exists m, E, atoms; auto|exact IN].
    - intros j x J PJ X X'. rewrite (sh_nodes _ _ _ SH) in J. apply in_seq in J. destruct (GET j ltac:(lia)) as (F & b & d & EF & H). unfold parent_of, basins_of in *. rewrite H in PJ, X'. cbn [n_parent n_basins] in PJ, X'. refine (AP m j E F atoms b x EM EF ltac:(lia) _ X X'). unfold parent_ref in PJ.
      destruct (Z.eqb_spec (m_parent F) (-1)) as [P1|P1], (Z.eqb_spec (m_parent E) (-1)) as [P2|P2]; try discriminate; [congruence|]. injection PJ as PJ. destruct (PA m E atoms EM) as [?|(p & ? & ? & EP & _)]; [congruence|]. destruct (PA j F b EF) as [?|(q & ? & ? & EQ & _)]; [congruence|]. lia. }
  destruct (add_effect (f_graph f) (existsb (fun e : domain * list nat => m_parent (fst e) =? Z.of_nat m) n) (m_basins E) (0 <? m_dim E) (m_min E) (m_max E) None (parent_ref E) (sh_wf _ _ _ SH) ADM ltac:(discriminate)) as (g' & i & k & EA & _ & NK & A).
  pose proof (a_id _ _ _ _ _ _ _ _ _ _ A) as AI. rewrite (sh_next _ _ _ SH) in AI. subst i.
  assert (KM : k = Z.of_nat m).
  { unfold add_node in EA. rewrite (sh_next _ _ _ SH) in EA. destruct (parent_ref E) as [p|] eqn:P.
    - destruct (n_red (g_heap (f_graph f) p)); [|discriminate]. cbn [obind] in EA. injection EA as EA. pose proof (a_node _ _ _ _ _ _ _ _ _ _ A) as AN. rewrite <- EA in AN. cbn [g_heap] in AN. rewrite hset_same in AN. apply (f_equal n_key) in AN. cbn [n_key] in AN. rewrite <- AN. apply key_fresh; cbn; [apply (sh_nodes _ _ _ SH)|apply (sh_keys _ _ _ SH)].
    - cbn [obind] in EA. injection EA as EA. pose proof (a_node _ _ _ _ _ _ _ _ _ _ A) as AN. rewrite <- EA in AN. cbn [g_heap] in AN. rewrite hset_same in AN. apply (f_equal n_key) in AN. cbn [n_key] in AN. rewrite <- AN. apply key_fresh; cbn; [apply (sh_nodes _ _ _ SH)|apply (sh_keys _ _ _ SH)]. }
  subst k. eexists. split.
  { unfold add_feature. rewrite NM, PR. cbn [obind]. rewrite EA. cbn [obind]. rewrite (a_node _ _ _ _ _ _ _ _ _ _ A). cbn [n_key]. rewrite seq_S, map_app. reflexivity. }
  constructor; unfold set_pay, set_graph; cbn [f_graph f_pay].
  - exact (added_wf _ _ _ _ _ _ _ _ _ _ (sh_wf _ _ _ SH) ADM NK A).
  - rewrite (a_nodes _ _ _ _ _ _ _ _ _ _ A), (sh_nodes _ _ _ SH), seq_S. reflexivity.
  - apply (a_next _ _ _ _ _ _ _ _ _ _ A).
  - rewrite (a_keys _ _ _ _ _ _ _ _ _ _ A), (sh_keys _ _ _ SH), seq_S, map_app. reflexivity.
  - intros c F b C EC. rewrite kids_snoc, NM. cbn [fst]. destruct (Nat.eq_dec c m) as [->|N].
    + rewrite EM in EC. injection EC as <- <-. exists None. rewrite (a_node _ _ _ _ _ _ _ _ _ _ A). f_equal. destruct (Z.eqb_spec (m_parent E) (Z.of_nat m)) as [X|X]; [destruct (PA m E atoms EM) as [?|(p & ? & ? & EP & PM & _)]; lia|]. rewrite app_nil_r. unfold kids. symmetry. apply filter_nil. intros j J. apply in_seq in J. destruct (GET j ltac:(lia)) as (G & b & d & EG & _). rewrite (nth_error_nth n j (dm0, []) EG). cbn [fst]. apply Z.eqb_neq. intros Y. destruct (PA j G b EG) as [?|(p & ? & ? & EP & PM & _)]; lia.
    + destruct (sh_node _ _ _ SH c F b ltac:(lia) EC) as (d & H). destruct (a_other _ _ _ _ _ _ _ _ _ _ A c N) as (S1 & S2 & S3 & S4). exists (n_depth (g_heap g' c)). apply static_fields in S1 as (T1 & T2 & T3 & T4 & T5). unfold parent_of, children_of in *. rewrite H in *. cbn [n_key n_red n_basins n_infinite n_min n_max n_parent n_children] in *.
      destruct (g_heap g' c) as [k0 r0 b0 i0 mn0 mx0 d0 p0 c0]. cbn [n_key n_red n_basins n_infinite n_min n_max n_parent n_children n_depth] in *. subst. f_equal. unfold parent_ref. destruct (Z.eqb_spec (m_parent E) (-1)) as [P|P].
      * destruct (Z.eqb_spec (m_parent E) (Z.of_nat c)) as [X|X]; [lia|]. now rewrite app_nil_r.
      * destruct (PA m E atoms EM) as [?|(p & ? & ? & EP & PM & _)]; [congruence|]. rewrite EP, Nat2Z.id. destruct (Nat.eqb_spec p c) as [->|X]; [now rewrite Z.eqb_refl|]. destruct (Z.eqb_spec (Z.of_nat p) (Z.of_nat c)) as [Y|Y]; [lia|]. now rewrite app_nil_r.
  - intros c F b C EC. destruct (Nat.eqb_spec m c) as [<-|N]; [rewrite EM in EC; injection EC as <- <-; auto|]. apply (sh_pay _ _ _ SH c F b ltac:(lia) EC).
Qed.

Lemma add_features_ok n : nested n -> forall m r f, (m + r = length n)%nat -> shown n m f ->
  exists f', ofold (add_feature n) (seq m r) (f, map Z.of_nat (seq 0 m)) = Done (f', map Z.of_nat (seq 0 (length n))) /\ shown n (length n) f'.
Proof.
  intros N m r. revert m. induction r as [|r IH]; intros m f L SH.
  - assert (m = length n) as -> by lia. exists f. auto.
  - destruct (add_feature_ok n m f N ltac:(lia) SH) as (f1 & E1 & SH1). cbn [seq ofold]. rewrite E1. cbn [obind]. apply IH; [lia|exact SH1].
Qed.

(** ** Subtypes *)
(** The subtype of domain number [k]. *)
Definition kind (n : news) (k : nat) (E : domain) (a : list nat) (s : Z) : Prop :=
  (~ has_child n k -> s = sub_point) /\
  (has_child n k -> m_parent E = -1 -> s = sub_root) /\
  (has_child n k -> forall p F b, m_parent E = Z.of_nat p -> nth_error n p = Some (F, b) ->
     (length (m_basins F) <> length (m_basins E) -> s = sub_dom) /\
     (length (m_basins F) = length (m_basins E) -> m_dim F <> m_dim E -> s = sub_dim) /\
     (length (m_basins F) = length (m_basins E) -> m_dim F = m_dim E -> length b <> length a -> s = sub_atom) /\
     (length (m_basins F) = length (m_basins E) -> m_dim F = m_dim E -> length b = length a -> s = sub_reducible)).
Lemma set_subtype_keeps f i : f_graph (set_subtype f i) = f_graph f /\ forall j, y_dim (f_pay (set_subtype f i) j) = y_dim (f_pay f j) /\ y_atoms (f_pay (set_subtype f i) j) = y_atoms (f_pay f j) /\ (j <> i -> y_subtype (f_pay (set_subtype f i) j) = y_subtype (f_pay f j)).
Proof.
  unfold set_subtype. destruct (n_parent _); [destruct (negb _); [|destruct (negb _); [|destruct (negb _)]]|]; (split; [reflexivity|]); intros j; cbn [set_pay f_pay]; (destruct (Nat.eqb_spec i j) as [<-|N]; [cbn [y_dim y_atoms y_subtype]; split; [reflexivity|]; split; [reflexivity|]; intros X; now destruct X|auto]) || auto.
Qed.
Lemma set_subtype_same f f' i : f_graph f = f_graph f' -> (forall j, y_dim (f_pay f j) = y_dim (f_pay f' j) /\ y_atoms (f_pay f j) = y_atoms (f_pay f' j)) -> y_subtype (f_pay f i) = y_subtype (f_pay f' i) ->
  y_subtype (f_pay (set_subtype f i) i) = y_subtype (f_pay (set_subtype f' i) i).
Proof.
  intros G P H. unfold set_subtype. rewrite G. destruct (P i) as [-> ->]. destruct (n_parent (g_heap (f_graph f') i)) as [p|]; [|cbn; now rewrite !Nat.eqb_refl]. destruct (P p) as [-> ->].
  destruct (negb _); [cbn; now rewrite !Nat.eqb_refl|]. destruct (negb _); [cbn; now rewrite !Nat.eqb_refl|]. destruct (negb _); [cbn; now rewrite !Nat.eqb_refl|exact H].
Qed.
Lemma set_subtypes_spec l : NoDup l -> forall f, let f' := fold_left set_subtype l f in
  f_graph f' = f_graph f /\ (forall j, y_dim (f_pay f' j) = y_dim (f_pay f j) /\ y_atoms (f_pay f' j) = y_atoms (f_pay f j)) /\
  (forall j, ~ In j l -> y_subtype (f_pay f' j) = y_subtype (f_pay f j)) /\ (forall j, In j l -> y_subtype (f_pay f' j) = y_subtype (f_pay (set_subtype f j) j)).
Proof.
  induction 1 as [|i l NI ND IH]; intros f; cbn [fold_left]; cbv zeta; [do 3 (split; [auto|]); intros j []|].
  destruct (set_subtype_keeps f i) as [K1 K2]. destruct (IH (set_subtype f i)) as (I1 & I2 & I3 & I4). split; [congruence|]. split; [intros j; destruct (I2 j) as [-> ->]; destruct (K2 j) as (-> & -> & _); auto|]. split.
  - intros j J. rewrite I3 by (intros X; apply J; now right). apply K2. intros ->. apply J. now left.
  - intros j [<-|J]; [now apply I3|]. rewrite (I4 j J). apply set_subtype_same; [exact K1|intros x; destruct (K2 x) as (A & B & _); auto|]. apply K2. intros ->. contradiction.
Qed.
