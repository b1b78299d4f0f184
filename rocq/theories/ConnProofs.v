(** Proofs about the connections between basins. *)
From Coq Require Import QArith.
From Verif Require Import Base GridModel GridProofs NeighModel NeighSpec NeighProofs LabelsModel
  ConnModel ConnSpec.
Local Open Scope Z_scope.

Lemma fold_left_flat_map {A B C} (f : A -> B -> A) (g : C -> list B) l : forall a,
  fold_left f (flat_map g l) a = fold_left (fun x c => fold_left f (g c) x) l a.
Proof. induction l as [|c t IH]; intro a; simpl; [reflexivity|]. now rewrite fold_left_app, IH. Qed.

Lemma py_min_spec a b : py_min a b = if Qlt_le_dec b a then b else a.
Proof.
  unfold py_min. destruct (Qlt_le_dec b a) as [H|H].
  - apply Qltb_lt in H. now rewrite H.
  - apply Qltb_ge in H. now rewrite H.
Qed.

(** ** Distinct labels *)
Lemma unique_fold ls : forall acc x,
  In x (fold_left (fun acc l => if existsb (Z.eqb l) acc then acc else acc ++ [l]) ls acc) <->
  In x acc \/ In x ls.
Proof.
  induction ls as [|l t IH]; intros acc x; simpl; [tauto|].
  rewrite IH. destruct (existsb (Z.eqb l) acc) eqn:E.
  - apply existsb_exists in E as (y & Hy & Ey). apply Z.eqb_eq in Ey. subst y.
    intuition congruence.
  - rewrite in_app_iff. simpl. intuition congruence.
Qed.

Lemma unique_in ls x : In x (unique_labels ls) <-> In x ls.
Proof. unfold unique_labels. rewrite unique_fold. simpl. tauto. Qed.

(** ** Best value per label *)
Lemma best_fold l nbs : forall b0,
  let b := fold_left (fun best p =>
    if negb (fst p =? l) then best else if Qltb best (snd p) then snd p else best) nbs b0 in
  (b = b0 \/ In (l, b) nbs) /\ (b0 <= b)%Q /\ forall q, In (l, q) nbs -> (q <= b)%Q.
Proof.
  induction nbs as [|[x q] t IH]; intro b0; cbv zeta; simpl.
  { repeat split; [now left|apply Qle_refl|tauto]. }
  destruct (Z.eqb_spec x l) as [->|N]; simpl.
  - destruct (Qltb b0 q) eqn:E.
    + apply Qltb_lt in E. destruct (IH q) as (H1 & H2 & H3). cbv zeta in H1, H2, H3.
      repeat split.
      * destruct H1 as [->|H1]; [now right; left|right; now right].
      * eapply Qle_trans; [|exact H2]. now apply Qlt_le_weak.
      * intros q' [H|H]; [injection H as <-; exact H2|now apply H3].
    + apply Qltb_ge in E. destruct (IH b0) as (H1 & H2 & H3). cbv zeta in H1, H2, H3.
      repeat split.
      * destruct H1 as [->|H1]; [now left|right; now right].
      * exact H2.
      * intros q' [H|H]; [injection H as <-; eapply Qle_trans; eauto|now apply H3].
  - destruct (IH b0) as (H1 & H2 & H3). cbv zeta in H1, H2, H3. repeat split.
    + destruct H1 as [->|H1]; [now left|right; now right].
    + exact H2.
    + intros q' [H|H]; [injection H as <- <-; congruence|now apply H3].
Qed.

Lemma best_spec l nbs : (exists q, In (l, q) nbs) ->
  (forall q, In (l, q) nbs -> (low_start < q)%Q) ->
  In (l, best_val l nbs) nbs /\ forall q, In (l, q) nbs -> (q <= best_val l nbs)%Q.
Proof.
  intros (q & H) L. destruct (best_fold l nbs low_start) as (H1 & H2 & H3).
  cbv zeta in H1, H2, H3. fold (best_val l nbs) in H1, H2, H3. split; [|exact H3].
  destruct H1 as [E|H1]; [|exact H1]. exfalso. specialize (H3 q H). rewrite E in H3.
  apply (Qlt_not_le _ _ (L q H)). exact H3.
Qed.

(** ** Positions of the missing basins *)
Lemma bmap_fold n ib : forall m, (forall p, In p ib -> (snd p < n)%nat) -> length m = n ->
  NoDup (map snd ib) ->
  let r := fold_left (fun m (ib : nat * nat) => upd m (snd ib) (Z.of_nat (fst ib) mod 65536)) ib m in
  (forall p, In p ib -> nth (snd p) r 0 = Z.of_nat (fst p) mod 65536) /\
  (forall b, ~ In b (map snd ib) -> nth b r 0 = nth b m 0).
Proof.
  induction ib as [|p t IH]; intros m L E N; cbv zeta; simpl; [split; [tauto|reflexivity]|].
  inversion N; subst.
  destruct (IH (upd m (snd p) (Z.of_nat (fst p) mod 65536))) as (H1' & H2').
  { intros x Hx. apply L. now right. } { now rewrite upd_length. } { assumption. }
  cbv zeta in H1', H2'. split.
  - intros x [->|Hx]; [|now apply H1'].
    rewrite H2' by assumption. apply nth_upd_same. apply L. now left.
  - intros b Nb. rewrite H2' by tauto. apply nth_upd_other. intro; subst. tauto.
Qed.

Lemma combine_seq_in {A} (l : list A) d : forall k i, (i < length l)%nat ->
  In ((k + i)%nat, nth i l d) (combine (seq k (length l)) l).
Proof.
  induction l as [|x t IH]; intros k i H; simpl in *; [lia|]. destruct i; [left; f_equal; lia|].
  right. replace (k + S i)%nat with (S k + i)%nat by lia. apply IH. lia.
Qed.

Lemma map_snd_combine_seq {A} (l : list A) : forall k, map snd (combine (seq k (length l)) l) = l.
Proof. induction l as [|x t IH]; intro k; simpl; [reflexivity|]. now rewrite IH. Qed.

Lemma basin_map_spec n missing i : NoDup missing -> (forall b, In b missing -> (b < n)%nat) ->
  (i < length missing)%nat -> Z.of_nat (length missing) <= 65536 ->
  nth (nth i missing 0%nat) (basin_map n missing) 0 = Z.of_nat i.
Proof.
  intros N L H B. unfold basin_map.
  destruct (bmap_fold n (combine (seq 0 (length missing)) missing) (repeat 0 n)) as (H1 & _).
  - intros p Hp. apply L. rewrite <- (map_snd_combine_seq missing 0). now apply in_map.
  - apply repeat_length.
  - now rewrite map_snd_combine_seq.
  - cbv zeta in H1. specialize (H1 _ (combine_seq_in missing 0%nat 0%nat i H)).
    cbn [fst snd] in H1. rewrite H1. apply Z.mod_small. lia.
Qed.

(** ** The matrix of best values *)
Definition cell (m : list (list Q)) (r c : nat) : Q := nth c (nth r m []) 0%Q.
Definition shape (m : list (list Q)) (R C : nat) : Prop :=
  length m = R /\ forall r, (r < R)%nat -> length (nth r m []) = C.

Lemma put_best_spec R C m row p : shape m R C -> 0 <= row < Z.of_nat R -> 0 <= fst p < Z.of_nat C ->
  shape (put_best row m p) R C /\
  forall r c, (r < R)%nat -> (c < C)%nat ->
    cell (put_best row m p) r c =
    if (Nat.eqb r (Z.to_nat row) && Nat.eqb c (Z.to_nat (fst p)))%bool
    then (if Qltb (cell m r c) (snd p) then snd p else cell m r c) else cell m r c.
Proof.
  intros (S1 & S2) Hr Hc. destruct p as [l q]. cbn [fst snd] in *. unfold put_best, cell.
  cbn [fst snd]. destruct (Qltb (nth (Z.to_nat l) (nth (Z.to_nat row) m []) 0%Q) q) eqn:E.
  - split.
    + split; [now rewrite upd_length|]. intros r Hr'. rewrite nth_upd.
      destruct (Nat.eqb_spec (Z.to_nat row) r) as [<-|]; simpl; [|now apply S2].
      destruct (Nat.ltb_spec (Z.to_nat row) (length m)); [|lia]. rewrite upd_length. now apply S2.
    + intros r c Hr' Hc'. rewrite nth_upd.
      destruct (Nat.eqb_spec (Z.to_nat row) r) as [<-|N]; simpl.
      * destruct (Nat.ltb_spec (Z.to_nat row) (length m)); [|lia]. rewrite Nat.eqb_refl. simpl.
        rewrite nth_upd. rewrite (Nat.eqb_sym c). destruct (Nat.eqb_spec (Z.to_nat l) c) as [<-|]; simpl.
        -- rewrite S2 by lia. destruct (Nat.ltb_spec (Z.to_nat l) C); [|lia]. now rewrite E.
        -- reflexivity.
      * destruct (Nat.eqb_spec r (Z.to_nat row)); [congruence|]. reflexivity.
  - split; [now split|]. intros r c Hr' Hc'.
    destruct (Nat.eqb_spec r (Z.to_nat row)) as [->|]; simpl; [|reflexivity].
    destruct (Nat.eqb_spec c (Z.to_nat l)) as [->|]; simpl; [|reflexivity]. now rewrite E.
Qed.

Lemma put_all_spec R C hits : forall m, shape m R C ->
  (forall h, In h hits -> 0 <= fst h < Z.of_nat R /\ 0 <= fst (snd h) < Z.of_nat C) ->
  let m' := fold_left (fun m (h : Z * (Z * Q)) => put_best (fst h) m (snd h)) hits m in
  shape m' R C /\
  forall r c, (r < R)%nat -> (c < C)%nat ->
    (cell m' r c = cell m r c \/
     ((cell m r c < cell m' r c)%Q /\ In (Z.of_nat r, (Z.of_nat c, cell m' r c)) hits)) /\
    (forall q, In (Z.of_nat r, (Z.of_nat c, q)) hits -> (q <= cell m' r c)%Q).
Proof.
  induction hits as [|[row p] t IH]; intros m S H; cbv zeta; simpl.
  { split; [exact S|]. intros r c Hr Hc. split; [now left|tauto]. }
  destruct (H (row, p) (or_introl eq_refl)) as (B1 & B2). cbn [fst snd] in B1, B2.
  destruct (put_best_spec R C m row p S B1 B2) as (S' & P).
  destruct (IH (put_best row m p) S') as (S2 & K). { intros h Hh. apply H. now right. }
  cbv zeta in S2, K. split; [exact S2|]. intros r c Hr Hc.
  destruct (K r c Hr Hc) as (K1 & K2). specialize (P r c Hr Hc).
  set (z := cell (fold_left _ t (put_best row m p)) r c) in *. clearbody z.
  destruct p as [l q]. cbn [fst snd] in *.
  destruct (Nat.eqb_spec r (Z.to_nat row)) as [Er|Er]; cbn [andb] in P;
    [destruct (Nat.eqb_spec c (Z.to_nat l)) as [Ec|Ec]|].
  - assert (Hrow : row = Z.of_nat r) by lia. assert (Hl : l = Z.of_nat c) by lia. subst row l.
    clear Er Ec. destruct (Qltb (cell m r c) q) eqn:E.
    + apply Qltb_lt in E. rewrite P in K1. split.
      * right. destruct K1 as [->|(K1 & K3)]; [split; [exact E|now left]|].
        split; [eapply Qlt_trans; eauto|now right].
      * intros q' [X|X]; [injection X as <-|now apply K2].
        destruct K1 as [->|(K1 & _)]; [apply Qle_refl|now apply Qlt_le_weak].
    + apply Qltb_ge in E. rewrite P in K1. split.
      * destruct K1 as [K1|(K1 & K3)]; [now left|right; split; [exact K1|now right]].
      * intros q' [X|X]; [injection X as <-|now apply K2]. eapply Qle_trans; [exact E|].
        destruct K1 as [->|(K1 & _)]; [apply Qle_refl|now apply Qlt_le_weak].
  - rewrite P in K1. split.
    + destruct K1 as [K1|(K1 & K3)]; [now left|right; split; [exact K1|now right]].
    + intros q' [X|X]; [|now apply K2]. injection X as _ X _. lia.
  - rewrite P in K1. split.
    + destruct K1 as [K1|(K1 & K3)]; [now left|right; split; [exact K1|now right]].
    + intros q' [X|X]; [|now apply K2]. injection X as X _ _. lia.
Qed.

Section Conn.
Variables nx ny nz : Z.
Hypothesis Hx : 0 < nx.
Hypothesis Hy : 0 < ny.
Hypothesis Hz : 0 < nz.
Variable num : nat.
Variable labels : arr3 Z.
Variable data : arr3 Q.
Variables bif_mask edge_mask vacuum : arr3 bool.
Variable ts : list offset.
Hypothesis Hts : forall s, In s ts -> unit_offset s.
Hypothesis HL : basin_labels nx ny nz num labels.
Hypothesis HD : forall v, in_grid nx ny nz v -> (low_start < value_at data v)%Q.

Notation grid := (in_grid nx ny nz).
Notation touching := (touching nx ny nz labels data ts).
Notation meets := (meets nx ny nz ts labels data vacuum).

Ltac rdv := change (@rd Z) with (@value_at Z) in *; change (@rd Q) with (@value_at Q) in *;
  change (@rd bool) with (@value_at bool) in *.

Lemma touching_spec v l q : grid v -> In (l, q) (touching v) <->
  exists s w, In s ts /\ periodic_target nx ny nz v s w /\ value_at labels w = l /\
    l <> value_at labels v /\ l <> -1 /\
    q = (if Qlt_le_dec (value_at data w) (value_at data v) then value_at data w
         else value_at data v).
Proof.
  intro G. unfold ConnModel.touching. rewrite in_flat_map. split.
  - intros (s & Hs & H). rdv.
    set (w := step_to nx ny nz v s) in *.
    assert (P : periodic_target nx ny nz v s w) by (apply (step_to_periodic nx ny nz Hx Hy Hz); auto).
    destruct (Z.eqb_spec (value_at labels w) (value_at labels v)); [simpl in H; contradiction|].
    destruct (Z.eqb_spec (value_at labels w) (-1)); [simpl in H; contradiction|]. simpl in H.
    destruct H as [H|[]]. injection H as <- <-. exists s, w.
    repeat split; auto. apply py_min_spec.
  - intros (s & w & Hs & P & E1 & N1 & N2 & ->). exists s. split; [exact Hs|].
    assert (Ew : step_to nx ny nz v s = w).
    { eapply ptarget_fun; [|exact P]. apply (step_to_periodic nx ny nz Hx Hy Hz); auto. }
    cbv zeta. rdv. rewrite Ew, E1.
    destruct (Z.eqb_spec l (value_at labels v)); [congruence|].
    destruct (Z.eqb_spec l (-1)); [congruence|]. left. now rewrite py_min_spec.
Qed.

Lemma touching_label v l q : grid v -> In (l, q) (touching v) -> 0 <= l < Z.of_nat num.
Proof.
  intros G H. apply touching_spec in H as (s & w & _ & P & <- & _ & N & _); [|exact G].
  assert (Gw : grid w) by (eapply ptarget_in_grid; eauto). specialize (HL w Gw). lia.
Qed.

Lemma touching_low v l q : grid v -> In (l, q) (touching v) -> (low_start < q)%Q.
Proof.
  intros G H. apply touching_spec in H as (s & w & _ & P & _ & _ & _ & ->); [|exact G].
  assert (Gw : grid w) by (eapply ptarget_in_grid; eauto).
  destruct (Qlt_le_dec _ _); now apply HD.
Qed.

Definition live (mask : arr3 bool) v : Prop :=
  grid v /\ value_at mask v = true /\ value_at vacuum v = false /\ value_at labels v <> -1.

Lemma meets_touching mask a b q : meets mask a b q <->
  exists v, live mask v /\ value_at labels v = a /\ In (b, q) (touching v).
Proof.
  split.
  - intros (v & s & w & G & M & V & Hs & P & <- & Eb & Na & Nb & Nab & ->). exists v.
    split; [now repeat split|]. split; [reflexivity|]. apply touching_spec; [exact G|].
    exists s, w. repeat split; auto.
  - intros (v & (G & M & V & N) & <- & H).
    apply touching_spec in H as (s & w & Hs & P & E & N1 & N2 & ->); [|exact G].
    exists v, s, w. repeat split; auto.
Qed.

(** ** First pass *)
Definition voxel_records (v : Z * Z * Z) : list (Z * Z * Q) :=
  map (fun u => (Z.min u (rd labels v), Z.max u (rd labels v), best_val u (touching v)))
    (unique_labels (map fst (touching v))).

Lemma add_fold label nbs us : forall recs found,
  fold_left (add_connection label nbs) us (recs, found) =
  (recs ++ map (fun u => (Z.min u label, Z.max u label, best_val u nbs)) us,
   fold_left (fun f u => upd (upd f (Z.to_nat u) true) (Z.to_nat label) true) us found).
Proof.
  induction us as [|u t IH]; intros recs found; simpl; [now rewrite app_nil_r|].
  rewrite IH, <- app_assoc. reflexivity.
Qed.

Lemma mark_fold label us : forall found,
  let f' := fold_left (fun f u => upd (upd f (Z.to_nat u) true) (Z.to_nat label) true) us found in
  length f' = length found /\
  forall b, (b < length found)%nat -> nth b f' false = true <->
    nth b found false = true \/ exists u, In u us /\ (b = Z.to_nat u \/ b = Z.to_nat label).
Proof.
  induction us as [|u t IH]; intros found; cbv zeta; simpl.
  { split; [reflexivity|]. intros b _. split; [now left|]. intros [H|(u & [] & _)]. exact H. }
  destruct (IH (upd (upd found (Z.to_nat u) true) (Z.to_nat label) true)) as (L & K).
  cbv zeta in L, K. rewrite !upd_length in L, K. split; [exact L|]. intros b Hb. rewrite (K b Hb).
  rewrite !nth_upd, !upd_length.
  destruct (Nat.eqb_spec (Z.to_nat label) b) as [El|El]; simpl.
  - destruct (Nat.ltb_spec (Z.to_nat label) (length found)); [|lia]. split; [|tauto].
    intros _. right. exists u. split; [now left|now right].
  - destruct (Nat.eqb_spec (Z.to_nat u) b) as [Eu|Eu]; simpl.
    + destruct (Nat.ltb_spec (Z.to_nat u) (length found)); [|lia]. split; [|tauto].
      intros _. right. exists u. split; [now left|now left].
    + split.
      * intros [H|(u' & H & H')]; [now left|right; exists u'; tauto].
      * intros [H|(u' & [->|H] & H')]; [now left| |right; exists u'; tauto].
        destruct H' as [H'|H']; congruence.
Qed.

Definition marks v b : Prop :=
  live bif_mask v /\ exists u q, In (u, q) (touching v) /\
    (b = Z.to_nat u \/ b = Z.to_nat (value_at labels v)).

Lemma bif_fold vs : forall recs found, (forall v, In v vs -> grid v) -> length found = num ->
  let st := fold_left (bif_voxel nx ny nz labels data bif_mask vacuum ts) vs (recs, found) in
  (forall r, In r (fst st) <-> In r recs \/
     exists v, In v vs /\ live bif_mask v /\ In r (voxel_records v)) /\
  length (snd st) = num /\
  (forall b, (b < num)%nat -> nth b (snd st) false = true <->
     nth b found false = true \/ exists v, In v vs /\ marks v b).
Proof.
  induction vs as [|v t IH]; intros recs found G L; cbv zeta; cbn [fold_left fst snd].
  { split; [intro r; split; [tauto|intros [H|(v & [] & _)]; exact H]|]. split; [exact L|].
    intros b _. split; [tauto|intros [H|(v & [] & _)]; exact H]. }
  assert (Gv : grid v) by (apply G; now left).
  assert (Gt : forall w, In w t -> grid w) by (intros w Hw; apply G; now right).
  unfold bif_voxel at 2 4 6.
  destruct (negb (rd bif_mask v) || rd vacuum v)%bool eqn:E1; [|destruct (Z.eqb_spec (rd labels v) (-1)) as [E2|E2]].
  - assert (NL : ~ live bif_mask v).
    { intros (_ & A & B & _). change (rd bif_mask v) with (value_at bif_mask v) in E1.
      change (rd vacuum v) with (value_at vacuum v) in E1. rewrite A, B in E1. discriminate. }
    destruct (IH recs found Gt L) as (H1 & H2 & H3). cbv zeta in H1, H2, H3.
    split; [|split; [exact H2|]].
    + intro r. rewrite H1. split; intros [H|(w & Hw & H)]; auto.
      * right. exists w. split; [now right|exact H].
      * destruct Hw as [->|Hw]; [tauto|]. right. exists w. tauto.
    + intros b Hb. rewrite (H3 b Hb). split; intros [H|(w & Hw & H)]; auto.
      * right. exists w. split; [now right|exact H].
      * destruct Hw as [->|Hw]; [destruct H; tauto|]. right. exists w. tauto.
  - assert (NL : ~ live bif_mask v) by (intros (_ & _ & _ & A); apply A; exact E2).
    destruct (IH recs found Gt L) as (H1 & H2 & H3). cbv zeta in H1, H2, H3.
    split; [|split; [exact H2|]].
    + intro r. rewrite H1. split; intros [H|(w & Hw & H)]; auto.
      * right. exists w. split; [now right|exact H].
      * destruct Hw as [->|Hw]; [tauto|]. right. exists w. tauto.
    + intros b Hb. rewrite (H3 b Hb). split; intros [H|(w & Hw & H)]; auto.
      * right. exists w. split; [now right|exact H].
      * destruct Hw as [->|Hw]; [destruct H; tauto|]. right. exists w. tauto.
  - assert (LV : live bif_mask v).
    { apply orb_false_iff in E1 as (A & B). apply negb_false_iff in A. now repeat split. }
    cbv zeta. rewrite add_fold.
    destruct (mark_fold (rd labels v) (unique_labels (map fst (touching v))) found) as (L' & K).
    cbv zeta in L', K. rewrite L in L', K.
    destruct (IH (recs ++ voxel_records v) _ Gt L') as (H1 & H2 & H3). cbv zeta in H1, H2, H3.
    split; [|split; [exact H2|]].
    + intro r. unfold voxel_records at 1 in H1. rewrite H1. rewrite in_app_iff. split.
      * intros [[H|H]|(w & Hw & H)]; auto.
        -- right. exists v. split; [now left|split; assumption].
        -- right. exists w. split; [now right|exact H].
      * intros [H|(w & [<-|Hw] & H)]; auto.
        -- left. right. apply H.
        -- right. exists w. tauto.
    + intros b Hb. rewrite (H3 b Hb), (K b Hb). split.
      * intros [[H|(u & Hu & Hb')]|(w & Hw & H)]; auto.
        -- right. exists v. split; [now left|]. split; [exact LV|].
           apply (proj1 (unique_in _ _)) in Hu. apply in_map_iff in Hu as ((u', q) & Eu & Hu). cbn [fst] in Eu.
           subst u'. exists u, q. split; [exact Hu|exact Hb'].
        -- right. exists w. split; [now right|exact H].
      * intros [H|(w & [<-|Hw] & H)]; auto.
        -- left. right. destruct H as (_ & u & q & Hu & Hb'). exists u. split; [|exact Hb'].
           apply unique_in. apply in_map_iff. now exists (u, q).
        -- right. exists w. tauto.
Qed.

Lemma first_pass_spec : let st := first_pass nx ny nz num labels data bif_mask vacuum ts in
  (forall r, In r (fst st) <-> exists v, live bif_mask v /\ In r (voxel_records v)) /\
  length (snd st) = num /\
  (forall b, (b < num)%nat -> nth b (snd st) false = true <-> exists v, marks v b).
Proof.
  unfold first_pass. cbv zeta.
  destruct (bif_fold (voxels nx ny nz) [] (repeat false num)) as (H1 & H2 & H3).
  { intros v Hv. now apply in_voxels. } { apply repeat_length. }
  cbv zeta in H1, H2, H3. split; [|split; [exact H2|]].
  - intro r. rewrite H1. split.
    + intros [[]|(v & _ & H)]. now exists v.
    + intros (v & H & H'). right. exists v. split; [apply in_voxels, H|tauto].
  - intros b Hb. rewrite (H3 b Hb), nth_repeat. split.
    + intros [H|(v & _ & H)]; [discriminate|]. now exists v.
    + intros (v & H). right. exists v. split; [apply in_voxels, H|exact H].
Qed.

Lemma voxel_records_spec v lo hi q : grid v -> In (lo, hi, q) (voxel_records v) <->
  exists u, In (u, q) (touching v) /\ (forall q', In (u, q') (touching v) -> (q' <= q)%Q) /\
    q = best_val u (touching v) /\
    lo = Z.min u (value_at labels v) /\ hi = Z.max u (value_at labels v).
Proof.
  intro G. unfold voxel_records. rewrite in_map_iff. split.
  - intros (u & E & Hu). apply (proj1 (unique_in _ _)), in_map_iff in Hu as ((u', q0) & Eu & Hu). cbn [fst] in Eu.
    subst u'. injection E as <- <- <-. exists u.
    destruct (best_spec u (touching v)) as (B1 & B2).
    { now exists q0. } { intros q' H. eapply touching_low; eauto. }
    repeat split; auto.
  - intros (u & Hu & _ & -> & -> & ->). exists u. split; [reflexivity|].
    apply unique_in, in_map_iff. eexists. split; [|exact Hu]. reflexivity.
Qed.

Lemma voxel_records_complete v u q : grid v -> In (u, q) (touching v) ->
  exists q', In (Z.min u (value_at labels v), Z.max u (value_at labels v), q') (voxel_records v) /\
    In (u, q') (touching v) /\ (q <= q')%Q.
Proof.
  intros G H. destruct (best_spec u (touching v)) as (B1 & B2).
  { now exists q. } { intros q' H'. eapply touching_low; eauto. }
  exists (best_val u (touching v)). split; [|split; [exact B1|now apply B2]].
  apply voxel_records_spec; [exact G|]. exists u. auto.
Qed.

(** ** Second pass *)
Section Second.
Variable found : list bool.
Hypothesis Hn : Z.of_nat num <= 65536.
Let missing := missing_basins num found.

Lemma missing_in b : In b missing <-> (b < num)%nat /\ nth b found false = false.
Proof.
  unfold missing, missing_basins. rewrite filter_In, in_seq, negb_true_iff. intuition lia.
Qed.

Lemma missing_nodup : NoDup missing.
Proof. apply NoDup_filter, seq_NoDup. Qed.

Lemma missing_len : (length missing <= num)%nat.
Proof.
  replace num with (length (seq 0 num)) at 1 by apply seq_length. apply NoDup_incl_length; [apply missing_nodup|].
  intros b H. apply missing_in in H. apply in_seq. lia.
Qed.

Definition hits (v : Z * Z * Z) : list (Z * (Z * Q)) :=
  if (negb (rd edge_mask v) || rd vacuum v)%bool then []
  else if (rd labels v =? -1) then []
  else if nth (Z.to_nat (rd labels v)) found false then []
  else map (fun p => (nth (Z.to_nat (rd labels v)) (basin_map num missing) 0, p)) (touching v).

Lemma edge_voxel_hits m v :
  edge_voxel nx ny nz labels data edge_mask vacuum ts found (basin_map num missing) m v =
  fold_left (fun m h => put_best (fst h) m (snd h)) (hits v) m.
Proof.
  unfold edge_voxel, hits. destruct (_ || _)%bool; [reflexivity|]. destruct (_ =? _); [reflexivity|].
  destruct (nth _ found false); [reflexivity|].
  generalize (touching v) as l. intro l. revert m.
  induction l as [|p t IH]; intro m; simpl; [reflexivity|]. apply IH.
Qed.

(** The hits in row [i] and column [c]. *)
Lemma hits_spec i c q : (i < length missing)%nat ->
  In (Z.of_nat i, (c, q)) (flat_map hits (voxels nx ny nz)) <->
  meets edge_mask (Z.of_nat (nth i missing 0%nat)) c q.
Proof.
  intro Hi. rewrite meets_touching, in_flat_map. split.
  - intros (v & Hv & H). apply in_voxels in Hv. unfold hits in H.
    destruct (negb (rd edge_mask v) || rd vacuum v)%bool eqn:E1; [destruct H|].
    destruct (Z.eqb_spec (rd labels v) (-1)) as [E2|E2]; [destruct H|].
    destruct (nth (Z.to_nat (rd labels v)) found false) eqn:E3; [destruct H|].
    apply in_map_iff in H as ((c', q') & E & H). injection E as E <- <-.
    exists v. apply orb_false_iff in E1 as (A & B). apply negb_false_iff in A.
    split; [now repeat split|]. split; [|exact H].
    rdv. specialize (HL v Hv).
    assert (M : In (Z.to_nat (value_at labels v)) missing) by (apply missing_in; split; [lia|exact E3]).
    apply (In_nth _ _ 0%nat) in M as (j & Hj & Ej).
    pose proof (basin_map_spec num missing j missing_nodup) as BM.
    rewrite Ej in BM. rewrite BM in E.
    + apply Nat2Z.inj in E. subst j. rewrite Ej. lia.
    + intros b Hb. now apply missing_in in Hb.
    + exact Hj.
    + pose proof missing_len. lia.
  - intros (v & (G & A & B & N) & E & H). exists v. split; [now apply in_voxels|].
    unfold hits. rdv. rewrite A, B. cbn [negb orb].
    destruct (Z.eqb_spec (value_at labels v) (-1)); [congruence|].
    assert (M : In (nth i missing 0%nat) missing) by (apply nth_In; exact Hi).
    apply missing_in in M as (M1 & M2). rewrite E, Nat2Z.id, M2.
    apply in_map_iff. exists (c, q). split; [|exact H]. f_equal.
    apply basin_map_spec; auto using missing_nodup.
    + intros b Hb. now apply missing_in in Hb.
    + pose proof missing_len. lia.
Qed.

Lemma hits_bounds h : In h (flat_map hits (voxels nx ny nz)) ->
  0 <= fst h < Z.of_nat (length missing) /\ 0 <= fst (snd h) < Z.of_nat num.
Proof.
  intro H. apply in_flat_map in H as (v & Hv & H). apply in_voxels in Hv. unfold hits in H.
  destruct (negb (rd edge_mask v) || rd vacuum v)%bool eqn:E1; [destruct H|].
  destruct (Z.eqb_spec (rd labels v) (-1)) as [E2|E2]; [destruct H|].
  destruct (nth (Z.to_nat (rd labels v)) found false) eqn:E3; [destruct H|].
  apply in_map_iff in H as ((c', q') & <- & H). cbn [fst snd]. split.
  - rdv. specialize (HL v Hv).
    assert (M : In (Z.to_nat (value_at labels v)) missing) by (apply missing_in; split; [lia|exact E3]).
    apply (In_nth _ _ 0%nat) in M as (j & Hj & Ej).
    pose proof (basin_map_spec num missing j missing_nodup) as BM.
    rewrite Ej in BM. rewrite BM; [lia| |exact Hj|pose proof missing_len; lia].
    intros b Hb. now apply missing_in in Hb.
  - eapply touching_label; eauto.
Qed.

Let final := fold_left
  (edge_voxel nx ny nz labels data edge_mask vacuum ts found (basin_map num missing))
  (voxels nx ny nz) (repeat (repeat 0%Q num) (length missing)).

Lemma nth_repeat_lt {A} (x d : A) n r : (r < n)%nat -> nth r (repeat x n) d = x.
Proof. revert r. induction n as [|n IH]; intros [|r] H; simpl; try lia; [reflexivity|]. apply IH. lia. Qed.

Lemma final_spec : shape final (length missing) num /\
  forall i c, (i < length missing)%nat -> (c < num)%nat ->
    let a := Z.of_nat (nth i missing 0%nat) in
    (cell final i c = 0%Q \/
     ((0 < cell final i c)%Q /\ meets edge_mask a (Z.of_nat c) (cell final i c))) /\
    (forall q, meets edge_mask a (Z.of_nat c) q -> (q <= cell final i c)%Q).
Proof.
  assert (F : final = fold_left (fun m h => put_best (fst h) m (snd h))
                (flat_map hits (voxels nx ny nz)) (repeat (repeat 0%Q num) (length missing))).
  { unfold final. rewrite fold_left_flat_map.
    generalize (voxels nx ny nz) as l. intro l. generalize (repeat (repeat 0%Q num) (length missing)) as m.
    induction l as [|v t IH]; intro m; simpl; [reflexivity|]. rewrite edge_voxel_hits. apply IH. }
  rewrite F. destruct (put_all_spec (length missing) num (flat_map hits (voxels nx ny nz))
    (repeat (repeat 0%Q num) (length missing))) as (S & K).
  - split; [apply repeat_length|]. intros r Hr. rewrite nth_repeat_lt by exact Hr. apply repeat_length.
  - apply hits_bounds.
  - cbv zeta in S, K. split; [exact S|]. intros i c Hi Hc. cbv zeta.
    destruct (K i c Hi Hc) as (K1 & K2).
    assert (C0 : cell (repeat (repeat 0%Q num) (length missing)) i c = 0%Q).
    { unfold cell. rewrite nth_repeat_lt by exact Hi. apply nth_repeat. }
    rewrite C0 in K1. split.
    + destruct K1 as [K1|(K1 & K3)]; [now left|right]. split; [exact K1|].
      apply hits_spec; assumption.
    + intros q H. apply K2, hits_spec; assumption.
Qed.

Lemma row_records_in label row lo hi q : In (lo, hi, q) (row_records label row) <->
  exists c, (c < length row)%nat /\ ~ (q == 0)%Q /\ q = nth c row 0%Q /\
    lo = Z.min (Z.of_nat c) (Z.of_nat label) /\ hi = Z.max (Z.of_nat c) (Z.of_nat label).
Proof.
  unfold row_records. rewrite in_flat_map. split.
  - intros (c & Hc & H). apply in_seq in Hc. destruct (Qeq_bool (nth c row 0%Q) 0) eqn:E; [destruct H|].
    destruct H as [H|[]]. injection H as <- <- <-. exists c. repeat split; try lia.
    now apply Qeq_bool_neq.
  - intros (c & Hc & N & -> & -> & ->). exists c. split; [apply in_seq; lia|].
    destruct (Qeq_bool (nth c row 0%Q) 0) eqn:E; [apply Qeq_bool_eq in E; contradiction|]. now left.
Qed.

Lemma second_pass_spec lo hi q :
  In (lo, hi, q) (second_pass nx ny nz num labels data edge_mask vacuum ts found) <->
  exists i c, (i < length missing)%nat /\ (c < num)%nat /\ ~ (q == 0)%Q /\ q = cell final i c /\
    let a := Z.of_nat (nth i missing 0%nat) in
    lo = Z.min (Z.of_nat c) a /\ hi = Z.max (Z.of_nat c) a.
Proof.
  assert (E : second_pass nx ny nz num labels data edge_mask vacuum ts found =
    flat_map (fun i => row_records (nth i missing 0%nat) (nth i final [])) (seq 0 (length missing))).
  { unfold second_pass. fold missing. unfold final. destruct missing; reflexivity. }
  rewrite E, in_flat_map. destruct final_spec as ((S1 & S2) & _). split.
  - intros (i & Hi & H). apply in_seq in Hi. apply row_records_in in H as (c & Hc & N & Eq & E1 & E2).
    rewrite S2 in Hc by lia. exists i, c. repeat split; auto; lia.
  - intros (i & c & Hi & Hc & N & Eq & E1 & E2). exists i. split; [apply in_seq; lia|].
    apply row_records_in. exists c. rewrite S2 by exact Hi. repeat split; auto.
Qed.
End Second.

(** ** Both passes *)
Notation conns := (find_domain_connections nx ny nz num labels data bif_mask edge_mask vacuum ts).

Lemma meets_range mask a b q : meets mask a b q ->
  0 <= a < Z.of_nat num /\ 0 <= b < Z.of_nat num /\ a <> b.
Proof.
  intro H. destruct H as (v & s & w & G & _ & _ & _ & P & <- & <- & N1 & N2 & N3 & _).
  assert (Gw : grid w) by (eapply ptarget_in_grid; eauto).
  pose proof (HL v G). pose proof (HL w Gw). lia.
Qed.

Lemma not_found b : (b < num)%nat ->
  nth b (snd (first_pass nx ny nz num labels data bif_mask vacuum ts)) false = false <->
  lonely (meets bif_mask) (Z.of_nat b).
Proof.
  intro Hb. destruct first_pass_spec as (_ & _ & F). cbv zeta in F. specialize (F b Hb). split.
  - intros E c q. split; intro M; pose proof (meets_range _ _ _ _ M) as (R1 & R2 & R3);
      apply meets_touching in M as (v & Lv & Ev & T);
      (assert (X : nth b (snd (first_pass nx ny nz num labels data bif_mask vacuum ts)) false = true);
       [apply F; exists v; split; [exact Lv|]; do 2 eexists; split; [exact T|]; lia|congruence]).
  - intro H. destruct (nth b _ false) eqn:E; [|reflexivity]. exfalso.
    destruct (proj1 F eq_refl) as (v & Lv & u & q & T & Eb).
    assert (M : meets bif_mask (value_at labels v) u q) by (apply meets_touching; exists v; auto).
    pose proof (meets_range _ _ _ _ M) as (R1 & R2 & R3).
    destruct Eb as [->| ->].
    + rewrite Z2Nat.id in H by lia. now apply (proj2 (H (value_at labels v) q)).
    + rewrite Z2Nat.id in H by lia. now apply (proj1 (H u q)).
Qed.

Hypothesis Hn : Z.of_nat num <= 65536.

Theorem conns_sound lo hi q : In (lo, hi, q) conns ->
  0 <= lo /\ lo < hi /\ hi < Z.of_nat num /\
  exists a b, ((a = lo /\ b = hi) \/ (a = hi /\ b = lo)) /\
    (meets bif_mask a b q \/
     (lonely (meets bif_mask) a /\ meets edge_mask a b q /\ (0 < q)%Q /\
      forall q', meets edge_mask a b q' -> (q' <= q)%Q)).
Proof.
  unfold find_domain_connections.
  pose proof first_pass_spec as F. pose proof not_found as NF.
  destruct (first_pass nx ny nz num labels data bif_mask vacuum ts) as [recs found].
  cbn [fst snd] in F, NF. destruct F as (F1 & F2 & F3).
  intro H. apply in_app_iff in H as [H|H].
  - apply F1 in H as (v & Lv & H). apply voxel_records_spec in H as (u & T & _ & _ & -> & ->); [|apply Lv].
    assert (M : meets bif_mask (value_at labels v) u q) by (apply meets_touching; exists v; auto).
    pose proof (meets_range _ _ _ _ M) as (R1 & R2 & R3).
    split; [lia|]. split; [lia|]. split; [lia|]. exists (value_at labels v), u. split; [lia|now left].
  - apply (second_pass_spec found Hn) in H as (i & c & Hi & Hc & N & Eq & E1 & E2). cbv zeta in E1, E2.
    destruct (final_spec found Hn) as (_ & K). destruct (K i c Hi Hc) as (K1 & K2). cbv zeta in K1, K2.
    rewrite <- Eq in K1, K2. destruct K1 as [K1|(K1 & K3)]; [exfalso; apply N; now rewrite K1|].
    pose proof (meets_range _ _ _ _ K3) as (R1 & R2 & R3).
    split; [lia|]. split; [lia|]. split; [lia|].
    exists (Z.of_nat (nth i (missing_basins num found) 0%nat)), (Z.of_nat c).
    split; [lia|]. right. repeat split; auto.
    + apply NF; [lia|]. assert (M : In (nth i (missing_basins num found) 0%nat) (missing_basins num found))
        by (apply nth_In; exact Hi). now apply missing_in in M.
    + apply NF; [lia|]. assert (M : In (nth i (missing_basins num found) 0%nat) (missing_basins num found))
        by (apply nth_In; exact Hi). now apply missing_in in M.
Qed.

Theorem conns_saddle a b q : meets bif_mask a b q ->
  exists q', In (Z.min a b, Z.max a b, q') conns /\ (q <= q')%Q /\ meets bif_mask a b q'.
Proof.
  intro M. unfold find_domain_connections.
  pose proof first_pass_spec as F.
  destruct (first_pass nx ny nz num labels data bif_mask vacuum ts) as [recs found].
  cbn [fst snd] in F. destruct F as (F1 & _).
  apply meets_touching in M as (v & Lv & E & T).
  destruct (voxel_records_complete v b q (proj1 Lv) T) as (q' & H & T' & L).
  exists q'. split; [|split; [exact L|apply meets_touching; exists v; auto]].
  apply in_app_iff. left. apply F1. exists v. split; [exact Lv|].
  rewrite Z.min_comm, Z.max_comm, <- E. exact H.
Qed.

Theorem conns_missing a b q : lonely (meets bif_mask) a -> meets edge_mask a b q -> (0 < q)%Q ->
  exists q', In (Z.min a b, Z.max a b, q') conns /\ (q <= q')%Q /\ meets edge_mask a b q' /\
    forall q'', meets edge_mask a b q'' -> (q'' <= q')%Q.
Proof.
  intros Lo M P. unfold find_domain_connections.
  pose proof not_found as NF. pose proof (meets_range _ _ _ _ M) as (R1 & R2 & R3).
  destruct (first_pass nx ny nz num labels data bif_mask vacuum ts) as [recs found].
  cbn [fst snd] in NF.
  assert (Mi : In (Z.to_nat a) (missing_basins num found)).
  { apply missing_in. split; [lia|]. apply NF; [lia|]. now rewrite Z2Nat.id by lia. }
  apply (In_nth _ _ 0%nat) in Mi as (i & Hi & Ei).
  destruct (final_spec found Hn) as (_ & K).
  destruct (K i (Z.to_nat b) Hi ltac:(lia)) as (K1 & K2). cbv zeta in K1, K2.
  rewrite Ei in K1, K2. rewrite !Z2Nat.id in K1, K2 by lia.
  specialize (K2 q M) as Kq.
  destruct K1 as [K1|(K1 & K3)]; [exfalso; rewrite K1 in Kq; apply (Qlt_not_le _ _ P); exact Kq|].
  eexists. split; [|split; [exact Kq|split; [exact K3|exact K2]]].
  apply in_app_iff. right. apply (second_pass_spec found Hn).
  exists i, (Z.to_nat b). split; [exact Hi|]. split; [lia|]. split.
  - intro E. rewrite E in K1. now apply (Qlt_irrefl 0).
  - split; [reflexivity|]. cbv zeta. rewrite Ei. rewrite !Z2Nat.id by lia.
    now rewrite Z.min_comm, Z.max_comm.
Qed.
End Conn.
