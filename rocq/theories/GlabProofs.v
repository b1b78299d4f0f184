(** Proofs about [GlabModel]. *)
From Coq Require Import Relations.
From Verif Require Import Base GridModel GridProofs RootsModel RootsProofs UnionModel LabelsProofs BadelfModel DimSpec GlabModel GlabSpec.
Local Open Scope Z_scope.

Lemma chain_trans adj ok a b c : chain adj ok a b -> chain adj ok b c -> chain adj ok a c.
Proof. intros J. revert c. induction J as [v V|x y z X T J IH]; intros c K; [exact K|]. eapply chain_step; eauto. Qed.
Lemma chain_ends adj ok a b : chain adj ok a b -> ok a /\ ok b.
Proof. induction 1 as [v V|x y z X T J [_ IH]]; auto. Qed.
Lemma chain_map (adj adj' : voxel -> voxel -> Prop) (ok ok' : voxel -> Prop) (f : voxel -> voxel) a b :
  (forall v, ok v -> ok' (f v)) -> (forall x y, ok x -> ok y -> adj x y -> adj' (f x) (f y)) -> chain adj ok a b -> chain adj' ok' (f a) (f b).
Proof. intros M T. induction 1 as [v V|x y z X Tt J IH]; [constructor; auto|]. eapply chain_step; eauto. apply T; auto. exact (proj1 (chain_ends _ _ _ _ J)). Qed.

Lemma sorted_ext (a b : list Z) : StronglySorted Z.lt a -> StronglySorted Z.lt b -> (forall x, In x a <-> In x b) -> a = b.
Proof.
  intros A. revert b. induction A as [|x a A IH F]; intros b B H.
  - destruct b as [|y b]; [reflexivity|]. destruct (proj2 (H y) (or_introl eq_refl)).
  - destruct B as [|y b B G]; [destruct (proj1 (H x) (or_introl eq_refl))|]. rewrite Forall_forall in F, G.
    assert (x = y).
    { destruct (proj1 (H x) (or_introl eq_refl)) as [E|I]; [now symmetry|]. destruct (proj2 (H y) (or_introl eq_refl)) as [E|J]; [exact E|]. specialize (F y J). specialize (G x I). lia. }
    subst y. f_equal. apply IH; [exact B|]. intros z. specialize (H z). cbn in H. split; intros I.
    + destruct (proj1 H (or_intror I)) as [E|J]; [|exact J]. specialize (F z I). lia.
    + destruct (proj2 H (or_intror I)) as [E|J]; [|exact J]. specialize (G z I). lia.
Qed.
Lemma sorted_nodup (a : list Z) : StronglySorted Z.lt a -> NoDup a.
Proof. induction 1 as [|x a A IH F]; constructor; [|exact IH]. rewrite Forall_forall in F. intros I. specialize (F x I). lia. Qed.

(** ** Lists of connections *)
Section Uc.
Variable n : nat.
Definition entry (uc : list (list Z)) (j : Z) : list Z := nth (Z.to_nat j) uc [].
Definition inr (j : Z) : Prop := 0 <= j < Z.of_nat n.

Lemma get_entry uc j : length uc = n -> inr j -> np_get uc j = Some (entry uc j).
Proof.
  intros L [A B]. unfold np_get, np_idx, entry. rewrite L. replace ((0 <=? j) && (j <? Z.of_nat n)) with true by lia. apply nth_error_nth'. rewrite L. lia.
Qed.
Lemma set_entry uc j x : length uc = n -> inr j -> exists uc', np_set uc j x = Some uc' /\ length uc' = n /\ forall i, inr i -> entry uc' i = if i =? j then x else entry uc i.
Proof.
  intros L [A B]. unfold np_set, np_idx. rewrite L. replace ((0 <=? j) && (j <? Z.of_nat n)) with true by lia.
  eexists. split; [reflexivity|]. split; [now rewrite upd_length|]. intros i [I1 I2]. unfold entry.
  destruct (Z.eqb_spec i j) as [->|N].
  - apply nth_error_nth. rewrite nth_error_upd, Nat.eqb_refl. replace (Nat.ltb (Z.to_nat j) (length uc)) with true; [reflexivity|]. symmetry. apply Nat.ltb_lt. lia.
  - assert (E : nth_error (upd uc (Z.to_nat j) x) (Z.to_nat i) = nth_error uc (Z.to_nat i)).
    { rewrite nth_error_upd. replace (Nat.eqb (Z.to_nat j) (Z.to_nat i)) with false; [reflexivity|]. symmetry. apply Nat.eqb_neq. lia. }
    pose proof (nth_error_nth' uc [] (n := Z.to_nat i) ltac:(lia)) as H. rewrite <- E in H. now apply nth_error_nth.
Qed.

Lemma extend_spec cf js : forall uc, length uc = n -> (forall j, In j js -> inr j) ->
  exists uc', extend_all cf js uc = Done uc' /\ length uc' = n /\ forall j k, inr j -> (In k (entry uc' j) <-> In k (entry uc j) \/ In j js /\ In k cf /\ k <> j).
Proof.
  induction js as [|a js IH]; intros uc L H.
  - exists uc. cbn. repeat split; auto; tauto.
  - cbn [extend_all]. rewrite get_entry by (auto; apply H; now left). cbn [oget obind].
    destruct (set_entry uc a (np_unique (entry uc a ++ filter (fun k => negb (k =? a)) cf)) L (H a (or_introl eq_refl))) as (uc1 & -> & L1 & E1). cbn [oget obind].
    destruct (IH uc1 L1) as (uc' & E & L' & S); [intros; apply H; now right|]. exists uc'. split; [exact E|]. split; [exact L'|].
    intros j k J. rewrite S, E1 by auto. destruct (Z.eqb_spec j a) as [->|N].
    + rewrite np_unique_in, in_app_iff, filter_In, negb_true_iff, Z.eqb_neq. cbn. intuition.
    + cbn. intuition congruence.
Qed.
End Uc.

Section Connect.
Variables nx ny nz : Z.
Variable n : nat.
Variables padded relabeled : arr3 Z.

Definition together (i j k : Z) : Prop := In j (features_of nx ny nz padded relabeled i) /\ In k (features_of nx ny nz padded relabeled i).

Lemma features_in i j :  In j (features_of nx ny nz padded relabeled i) <-> exists v, In v (voxels (nx + 2) (ny + 2) (nz + 2)) /\ rd3 relabeled v = i /\ rd3 padded v = j.
Proof.
  unfold features_of. rewrite np_unique_in, in_map_iff. split.
  - intros (v & E & I). apply filter_In in I as [I F]. exists v. split; [exact I|]. split; [lia|exact E].
  - intros (v & I & F & E). exists v. split; [exact E|]. apply filter_In. split; [exact I|lia].
Qed.

Hypothesis RANGE : forall v, In v (voxels (nx + 2) (ny + 2) (nz + 2)) -> inr n (rd3 padded v).

Lemma connect_spec is_ : forall uc, length uc = n -> exists uc', connect nx ny nz padded relabeled is_ uc = Done uc' /\ length uc' = n /\
  forall j k, inr n j -> (In k (entry uc' j) <-> In k (entry uc j) \/ k <> j /\ exists i, In i is_ /\ together i j k).
Proof.
  induction is_ as [|i is_ IH]; intros uc L.
  - exists uc. cbn. split; [reflexivity|]. split; [exact L|]. intros j k J. split; [tauto|]. intros [H|(_ & i & [] & _)]. exact H.
  - cbn [connect]. set (cf := features_of nx ny nz padded relabeled i).
    destruct (extend_spec n cf cf uc L) as (uc1 & -> & L1 & S1); [intros j J; apply features_in in J as (v & V & _ & <-); now apply RANGE|]. cbn [obind].
    destruct (IH uc1 L1) as (uc' & E & L' & S). exists uc'. split; [exact E|]. split; [exact L'|]. intros j k J. rewrite S, S1 by exact J. unfold together. fold cf. split.
    + intros [[H|(A & B & C)]|(N & i' & I & T)]; [now left|right|right].
      * split; [exact C|]. exists i. split; [now left|]. split; assumption.
      * split; [exact N|]. exists i'. split; [now right|exact T].
    + intros [H|(N & i' & [<-|I] & T1 & T2)]; [tauto| |].
      * left. right. fold cf in T1, T2. tauto.
      * right. split; [exact N|]. exists i'. auto.
Qed.
End Connect.

(** ** Classes *)
Section Classes.
Variable n : nat.
Variable uc : list (list Z).
Hypothesis LUC : length uc = n.
Definition U (j k : Z) : Prop := inr n j /\ In k (entry uc j).
Hypothesis URANGE : forall j k, U j k -> inr n k.
Hypothesis USYM : forall j k, U j k -> U k j.

Lemma update_spec js : forall acc, (forall j, In j js -> inr n j) -> StronglySorted Z.lt acc -> exists out, update_all uc js acc = Done out /\ StronglySorted Z.lt out /\
  forall x, In x out <-> In x acc \/ exists j, In j js /\ U j x.
Proof.
  induction js as [|j js IH]; intros acc R S.
  - exists acc. cbn. split; [reflexivity|]. split; [exact S|]. intros x. split; [tauto|]. intros [H|(j & [] & _)]. exact H.
  - cbn [update_all]. rewrite (get_entry n) by (auto; apply R; now left). cbn [oget obind].
    destruct (IH (np_unique (acc ++ entry uc j))) as (out & E & SO & H); [intros; apply R; now right|apply np_unique_sorted|]. exists out. split; [exact E|]. split; [exact SO|].
    intros x. rewrite H, np_unique_in, in_app_iff. split.
    + intros [[A|A]|(j' & J & A)]; [now left|right; exists j; split; [now left|split; [apply R; now left|exact A]]|right; exists j'; split; [now right|exact A]].
    + intros [A|(j' & [<-|J] & A)]; [tauto|left; right; exact (proj2 A)|right; now exists j'].
Qed.

Notation reach := (clos_trans_1n Z U).

Lemma reach_out s x k : reach s x -> U x k -> reach s k.
Proof. induction 1 as [x y H|x y z H R IH]; intros K; [apply (Relation_Operators.t1n_trans _ _ _ _ _ H); now apply t1n_step|]. apply (Relation_Operators.t1n_trans _ _ _ _ _ H). now apply IH. Qed.

Lemma sorted_len conn new : StronglySorted Z.lt conn -> StronglySorted Z.lt new -> (forall x, In x conn -> In x new) -> conn <> new -> (length conn < length new)%nat.
Proof.
  intros S1 S2 I N. destruct (le_lt_dec (length new) (length conn)) as [L|L]; [|exact L]. exfalso. apply N. apply sorted_ext; auto.
  intros x. split; [apply I|]. apply (NoDup_length_incl (sorted_nodup _ S1) L). exact I.
Qed.
Lemma inr_length l : StronglySorted Z.lt l -> (forall x, In x l -> inr n x) -> (length l <= n)%nat.
Proof.
  intros S H. rewrite <- (seq_length n 0), <- (map_length Z.of_nat). apply NoDup_incl_length; [now apply sorted_nodup|].
  intros x I. destruct (H x I). apply in_map_iff. exists (Z.to_nat x). split; [lia|]. apply in_seq. lia.
Qed.

Lemma grow_spec i already0 fuel : forall conn new already,
  StronglySorted Z.lt conn -> StronglySorted Z.lt new -> (forall x, In x conn -> In x new) -> (forall x, U i x -> In x new) ->
  (forall x, In x new -> reach i x) -> (forall j k, In j conn -> U j k -> In k new) -> (forall x, In x already <-> In x already0 \/ In x conn) ->
  (n < fuel + length conn)%nat ->
  exists out already', grow fuel uc conn new already = Done (out, already') /\ StronglySorted Z.lt out /\
    (forall x, In x out <-> reach i x) /\ (forall x, In x already' <-> In x already0 \/ In x out).
Proof.
  assert (RR : forall x, reach i x -> inr n x). { intros x R. induction R as [x y H|x y z H R IH]; [exact (URANGE _ _ H)|exact IH]. }
  induction fuel as [|f IH]; intros conn new already SC SN CN ST NR CL AL FU.
  - pose proof (inr_length conn SC ltac:(intros x I; auto)). lia.
  - cbn [grow]. unfold zlist_eqb. destruct (list_eq_dec Z.eq_dec conn new) as [->|N].
    + exists new, already. split; [reflexivity|]. split; [exact SN|]. split; [|exact AL]. intros x. split; [apply NR|].
      intros R. apply Operators_Properties.clos_trans_t1n_iff, Operators_Properties.clos_trans_tn1_iff in R. induction R as [y H|y z H R IHr]; [now apply ST|]. exact (CL _ _ IHr H).
    + destruct (update_spec new new) as (new' & -> & SN' & U'); [auto|exact SN|]. cbn [obind]. apply IH; auto.
      * intros x I. apply U'. now left.
      * intros x I. apply U'. left. now apply ST.
      * intros x I. apply U' in I as [I|(j & J & H)]; [now apply NR|]. exact (reach_out _ _ _ (NR j J) H).
      * intros j k J H. apply U'. right. now exists j.
      * intros x. rewrite in_app_iff, AL. split; [intros [A|[A|A]]; auto|tauto].
      * pose proof (sorted_len _ _ SC SN CN N). lia.
Qed.

Definition is_class (c : list Z) : Prop := StronglySorted Z.lt c /\ c <> [] /\ exists i, forall x, In x c <-> reach i x.

Lemma reduce_spec fuel is_ : (n < fuel)%nat -> forall already, (forall i, In i is_ -> inr n i) -> exists r, reduce fuel uc is_ already = Done r /\
  (forall c, In c r -> is_class c) /\ (forall i k, In i is_ -> U i k -> In i already \/ exists c, In c r /\ In i c).
Proof.
  intros FU. induction is_ as [|i t IH]; intros already R.
  - exists []. cbn. split; [reflexivity|]. split; [tauto|]. tauto.
  - cbn [reduce]. destruct (existsb (Z.eqb i) already) eqn:E.
    + destruct (IH already) as (r & -> & C & K); [intros; apply R; now right|]. exists r. split; [reflexivity|]. split; [exact C|].
      intros j k [<-|J] H; [left|exact (K j k J H)]. apply existsb_exists in E as (x & X & E). replace i with x by lia. exact X.
    + rewrite (get_entry n) by (auto; apply R; now left). cbn [oget obind].
      assert (UI : forall x, U i x <-> In x (entry uc i)). { intros x. unfold U. split; [tauto|]. intros H. split; [apply R; now left|exact H]. }
      destruct (grow_spec i already fuel [] (np_unique (entry uc i)) already) as (c & already' & -> & SC & RC & AC);
        [apply SSorted_nil|apply np_unique_sorted|intros x []|intros x H; apply np_unique_in; exact (proj1 (UI x) H)|intros x H; rewrite np_unique_in in H; apply t1n_step; exact (proj2 (UI x) H)|intros j k []|cbn; tauto|cbn; lia|].
      cbn [obind]. destruct (IH already') as (r & -> & C & K); [intros; apply R; now right|]. cbn [obind]. eexists. split; [reflexivity|]. split.
      * intros c' I. assert (I' : c' = c /\ c <> [] \/ In c' r). { destruct c; [now right|]. destruct I as [<-|I]; [left; split; [reflexivity|discriminate]|now right]. }
        destruct I' as [[-> N]|I']; [|now apply C]. split; [exact SC|]. split; [exact N|]. now exists i.
      * intros j k J H. assert (IC : forall x, In x c -> exists c0, In c0 (match c with [] => r | _ => c :: r end) /\ In x c0). { intros x X. destruct c as [|h c]; [destruct X|]. exists (h :: c). split; [now left|exact X]. }
        destruct J as [<-|J].
        -- right. apply IC. apply RC. apply (Relation_Operators.t1n_trans _ _ _ _ _ H). apply t1n_step. now apply USYM.
        -- destruct (K j k J H) as [A|(c0 & C0 & X)].
           ++ apply AC in A as [A|A]; [now left|]. right. now apply IC.
           ++ right. exists c0. split; [|exact X]. destruct c; [exact C0|now right].
Qed.

Lemma reach_sym a b : reach a b -> reach b a.
Proof.
  intros R. apply Operators_Properties.clos_trans_t1n_iff in R. apply Operators_Properties.clos_trans_t1n_iff. induction R as [x y H|x y z _ IH1 _ IH2]; [apply t_step; now apply USYM|]. eapply t_trans; eassumption.
Qed.
Lemma reach_trans a b c : reach a b -> reach b c -> reach a c.
Proof. intros A B. apply Operators_Properties.clos_trans_t1n_iff. apply t_trans with b; now apply Operators_Properties.clos_trans_t1n_iff. Qed.

Lemma class_eq c d x : is_class c -> is_class d -> In x c -> In x d -> c = d.
Proof.
  intros (SC & _ & i & C) (SD & _ & j & D) XC XD. apply sorted_ext; auto. apply C in XC. apply D in XD. intros y. rewrite C, D. split; intros H.
  - apply (reach_trans _ _ _ XD). apply (reach_trans _ i); [now apply reach_sym|exact H].
  - apply (reach_trans _ _ _ XC). apply (reach_trans _ j); [now apply reach_sym|exact H].
Qed.
Lemma class_reach c x y : is_class c -> In x c -> (In y c <-> reach x y).
Proof.
  intros (SC & _ & i & C) X. apply C in X. rewrite C. split; intros H; [|now apply (reach_trans _ _ _ X)]. apply (reach_trans _ i); [now apply reach_sym|exact H].
Qed.

(** ** Lowering labels *)
Definition low (c : list Z) : Z := hd 0 c.
Lemma low_in c : is_class c -> In (low c) c.
Proof. intros (_ & N & _). destruct c; [congruence|now left]. Qed.
Lemma unique_sorted c : StronglySorted Z.lt c -> np_unique c = c.
Proof. intros S. apply sorted_ext; [apply np_unique_sorted|exact S|]. intros x. apply np_unique_in. Qed.

Lemma where_fold l t : forall a v, ~ In l t -> rd3 (fold_left (fun b h => where3 h l b) t a) v = if existsb (Z.eqb (rd3 a v)) t then l else rd3 a v.
Proof.
  induction t as [|h t IH]; intros a v N; cbn [fold_left existsb]; [reflexivity|]. rewrite IH by (intros I; apply N; now right).
  assert (E : rd3 (where3 h l a) v = if rd3 a v =? h then l else rd3 a v) by (destruct v as [[i j] k]; reflexivity). rewrite E.
  destruct (Z.eqb_spec (rd3 a v) h) as [Q|Q]; cbn [orb]; [|reflexivity]. destruct (existsb (Z.eqb l) t); reflexivity.
Qed.
Lemma lower_one a c v : is_class c -> rd3 (lower_class a c) v = if existsb (Z.eqb (rd3 a v)) c then low c else rd3 a v.
Proof.
  intros (S & N & _). unfold lower_class. rewrite unique_sorted by exact S. destruct c as [|l t]; [congruence|]. pose proof (sorted_nodup _ S) as ND. apply NoDup_cons_iff in ND as [ND _].
  rewrite where_fold by exact ND. cbn [existsb low hd]. destruct (Z.eqb_spec (rd3 a v) l) as [->|Q]; cbn [orb]; [|reflexivity]. now destruct (existsb _ t).
Qed.
Lemma exb x c : existsb (Z.eqb x) c = true <-> In x c.
Proof. rewrite existsb_exists. split; [intros (y & Y & E); replace x with y by lia; exact Y|]. intros I. exists x. split; [exact I|lia]. Qed.

Lemma lower_spec r : (forall c, In c r -> is_class c) -> forall a v,
  (forall c, In c r -> In (rd3 a v) c -> rd3 (fold_left lower_class r a) v = low c) /\ ((forall c, In c r -> ~ In (rd3 a v) c) -> rd3 (fold_left lower_class r a) v = rd3 a v).
Proof.
  induction r as [|d r IH]; intros C a v; cbn [fold_left]; [split; [intros c []|reflexivity]|].
  assert (CD : is_class d) by (apply C; now left). specialize (IH ltac:(intros; apply C; now right) (lower_class a d) v). destruct IH as [A B].
  rewrite lower_one in A, B by exact CD. destruct (existsb (Z.eqb (rd3 a v)) d) eqn:E.
  - apply exb in E. assert (G : rd3 (fold_left lower_class r (lower_class a d)) v = low d).
    { destruct (in_dec (list_eq_dec Z.eq_dec) d r) as [I|N]; [exact (A d I (low_in d CD))|]. apply B. intros c I X. apply N. rewrite (class_eq d c (low d)); auto; [|now apply low_in]. apply C. now right. }
    split.
    + intros c I X. rewrite G. f_equal. apply (class_eq d c (rd3 a v)); auto.
    + intros H. destruct (H d (or_introl eq_refl) E).
  - assert (~ In (rd3 a v) d) by (rewrite <- exb; congruence). split.
    + intros c [<-|I] X; [contradiction|now apply A].
    + intros H'. apply B. intros c I. apply H'. now right.
Qed.
End Classes.

(** ** Renumbering *)
Lemma rd3_where h l a v : rd3 (where3 h l a) v = if rd3 a v =? h then l else rd3 a v.
Proof. destruct v as [[i j] k]; reflexivity. Qed.
Lemma renumber_other us : forall i a v, ~ In (rd3 a v) us -> rd3 (renumber i us a) v = rd3 a v.
Proof.
  induction us as [|u us IH]; intros i a v N; cbn [renumber]; [reflexivity|]. cbn in N. rewrite IH; rewrite rd3_where; destruct (Z.eqb_spec (rd3 a v) u); intuition.
Qed.
Lemma renumber_spec us : forall i a v, StronglySorted Z.lt us -> (forall u, In u us -> i <= u) -> In (rd3 a v) us -> rd3 (renumber i us a) v = i + index_of (rd3 a v) us.
Proof.
  induction us as [|u us IH]; intros i a v S B I; cbn [renumber index_of]; [destruct I|]. apply StronglySorted_inv in S as [S F]. rewrite Forall_forall in F.
  pose proof (B u (or_introl eq_refl)) as B0. destruct (Z.eqb_spec (rd3 a v) u) as [E|N].
  - rewrite renumber_other; rewrite rd3_where, E, Z.eqb_refl; [lia|]. intros J. specialize (F i J). lia.
  - rewrite IH; auto.
    + rewrite rd3_where. destruct (Z.eqb_spec (rd3 a v) u); lia.
    + intros w W. specialize (F w W). lia.
    + rewrite rd3_where. destruct (Z.eqb_spec (rd3 a v) u); [contradiction|]. destruct I; [lia|assumption].
Qed.
