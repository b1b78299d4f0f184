(** Proofs about the drawing of a bifurcation graph. *)
From Coq Require Import QArith Lqa Lia Permutation.
From Verif Require Import Base TextModel VaspModel PlotModel.
Local Open Scope Z_scope.

Section Induction.
Variable P : tree -> Prop.
Hypothesis HL : forall k a b, P (Leaf k a b).
Hypothesis HB : forall k a b c, Forall P c -> P (Branch k a b c).
Fixpoint tree_rec' (t : tree) : P t :=
  match t with
  | Leaf k a b => HL k a b
  | Branch k a b c => HB k a b c ((fix go l : Forall P l := match l with [] => Forall_nil P | u :: l => Forall_cons u (tree_rec' u) (go l) end) c)
  end.
End Induction.

(** ** Leaves and positions *)
Fixpoint subtrees (t : tree) : list tree := t :: match t with Leaf _ _ _ => [] | Branch _ _ _ c => flat_map subtrees c end.
Definition nodes (l : list tree) : list tree := flat_map subtrees l.
Fixpoint nl (t : tree) : Z := match t with Leaf _ _ _ => 1 | Branch _ _ _ c => fold_right (fun u s => nl u + s) 0 c end.
Definition nls (l : list tree) : Z := fold_right (fun u s => nl u + s) 0 l.
Fixpoint pos (t : tree) (s : Z) : Q :=
  match t with
  | Leaf _ _ _ => inject_Z s
  | Branch _ _ _ c => (qsum ((fix go l s := match l with [] => [] | u :: l => pos u s :: go l (s + nl u)%Z end) c s) / inject_Z (Z.of_nat (List.length c)))%Q
  end.
Fixpoint poss (l : list tree) (s : Z) : list Q := match l with [] => [] | u :: l => pos u s :: poss l (s + nl u) end.
Lemma pos_branch k a b c s : pos (Branch k a b c) s = (qsum (poss c s) / inject_Z (Z.of_nat (List.length c)))%Q.
Proof. reflexivity. Qed.
Inductive occ : list tree -> Z -> tree -> Z -> Prop :=
| occ_here t l s : occ (t :: l) s t s
| occ_next t l s u r : occ l (s + nl t) u r -> occ (t :: l) s u r
| occ_in t l s u r : occ (children t) s u r -> occ (t :: l) s u r.
Inductive top : list tree -> Z -> tree -> Z -> Prop :=
| top_here t l s : top (t :: l) s t s
| top_next t l s u r : top l (s + nl t) u r -> top (t :: l) s u r.
Lemma top_occ l s u r : top l s u r -> occ l s u r.
Proof. induction 1; [constructor|now apply occ_next]. Qed.
Lemma top_ex u l : In u l -> forall s, exists r, top l s u r.
Proof. induction l as [|t l IH]; [easy|]. intros [->|I] s; [eexists; constructor|]. destruct (IH I (s + nl t)) as (r & R). exists r. now constructor. Qed.
Lemma top_in l s u r : top l s u r -> In u l.
Proof. induction 1; [now left|now right]. Qed.
Lemma nodes_self t : In t (subtrees t).
Proof. destruct t; now left. Qed.
Lemma subtrees_eq t : subtrees t = t :: nodes (children t).
Proof. destruct t; reflexivity. Qed.
Lemma occ_nodes l s u r : occ l s u r -> In u (nodes l).
Proof. induction 1; unfold nodes in *; cbn [flat_map]; apply in_app_iff; [left; apply nodes_self|now right|left; rewrite subtrees_eq; now right]. Qed.
Lemma nl_nonneg t : 0 <= nl t.
Proof. induction t as [|k a b c F] using tree_rec'; [cbn; lia|]. cbn [nl]. induction F as [|u c U F IH]; cbn [fold_right]; lia. Qed.
Lemma nls_nonneg l : 0 <= nls l.
Proof. induction l as [|u l IH]; cbn; [lia|]. pose proof (nl_nonneg u). fold (nls l). lia. Qed.
Lemma nls_children t : nls (children t) <= nl t.
Proof. destruct t as [k a b|k a b c]; cbn [children nl]; [cbn; lia|]. fold (nls c). lia. Qed.
Lemma nls_cons u l : nls (u :: l) = nl u + nls l.
Proof. reflexivity. Qed.
Lemma occ_ex u l : In u (nodes l) -> forall s, exists r, occ l s u r.
Proof.
  assert (T : forall t, In u (subtrees t) -> forall s, u = t \/ exists r, occ (children t) s u r).
  { induction t as [|k a b c F] using tree_rec'; cbn [subtrees]; intros I s; [destruct I as [->|[]]; auto|]. destruct I as [->|I]; [auto|]. right. cbn [children]. revert s. induction F as [|t c T F IH]; [easy|]. intros s. cbn [flat_map] in I. apply in_app_iff in I as [I|I].
    - destruct (T I s) as [->|(r & R)]; [exists s; constructor|]. exists r. now apply occ_in.
    - destruct (IH I (s + nl t)) as (r & R). exists r. now apply occ_next. }
  induction l as [|t l IH]; [easy|]. intros I s. unfold nodes in I. cbn [flat_map] in I. apply in_app_iff in I as [I|I].
  - destruct (T t I s) as [->|(r & R)]; [exists s; constructor|exists r; now apply occ_in].
  - destruct (IH I (s + nl t)) as (r & R). exists r. now apply occ_next.
Qed.
Lemma occ_bounds l s u r : occ l s u r -> s <= r /\ r + nl u <= s + nls l.
Proof.
  induction 1 as [t l s|t l s u r H IH|t l s u r H IH]; rewrite nls_cons.
  - pose proof (nls_nonneg l). lia.
  - pose proof (nl_nonneg t). lia.
  - pose proof (nls_children t). pose proof (nls_nonneg l). lia.
Qed.
Lemma occ_trans l s u r v q : occ l s u r -> occ (children u) r v q -> occ l s v q.
Proof. induction 1 as [t l s|t l s u r H IH|t l s u r H IH]; intros K; [now apply occ_in|apply occ_next|apply occ_in]; auto. Qed.
Lemma occ_tri l s u r v q : occ l s u r -> occ l s v q ->
  u = v /\ r = q \/ r + nl u <= q \/ q + nl v <= r \/ occ (children u) r v q \/ occ (children v) q u r.
Proof.
  intros H. revert v q. induction H as [t l s|t l s u r H IH|t l s u r H IH]; intros v q K; inversion K as [t' l' s'|t' l' s' u' r' K'|t' l' s' u' r' K']; subst.
  - auto.
  - apply occ_bounds in K'. right. left. lia.
  - auto.
  - apply occ_bounds in H. right. right. left. lia.
  - now apply IH.
  - apply occ_bounds in H, K'. pose proof (nls_children t). right. right. left. lia.
  - auto 6.
  - apply occ_bounds in H, K'. pose proof (nls_children t). right. left. lia.
  - now apply IH.
Qed.
Lemma top_tri l s u r v q : top l s u r -> occ l s v q -> u = v /\ r = q \/ r + nl u <= q \/ q + nl v <= r \/ occ (children u) r v q.
Proof.
  intros H. revert v q. induction H as [t l s|t l s u r H IH]; intros v q K; inversion K as [t' l' s'|t' l' s' u' r' K'|t' l' s' u' r' K']; subst.
  - auto.
  - apply occ_bounds in K'. right. left. lia.
  - auto.
  - apply top_occ, occ_bounds in H. right. right. left. lia.
  - now apply IH.
  - apply top_occ, occ_bounds in H. apply occ_bounds in K'. pose proof (nls_children t). right. right. left. lia.
Qed.

Definition full (l : list tree) : Prop := forall t, In t (nodes l) -> is_leaf t = false -> children t <> [].
Lemma full_cons u l : full (u :: l) -> full (children u) /\ full l /\ (is_leaf u = false -> children u <> []).
Proof.
  intros F. unfold full, nodes in *. cbn [flat_map] in F. rewrite subtrees_eq in F. repeat split.
  - intros t I. apply F, in_app_iff. left. now right.
  - intros t I. apply F, in_app_iff. now right.
  - apply F. now left.
Qed.
Lemma full_sub l : full l -> forall s u r, occ l s u r -> full (children u) /\ (is_leaf u = false -> children u <> []).
Proof. intros F s u r H. induction H as [t l s|t l s u r H IH|t l s u r H IH]; apply full_cons in F as (F1 & F2 & F3); auto. Qed.

Lemma mean_bounds (l : list Q) lo hi : l <> [] -> (forall y, In y l -> (lo <= y <= hi)%Q) -> (lo <= qsum l / inject_Z (Z.of_nat (List.length l)) <= hi)%Q.
Proof.
  intros N B. assert (S : (lo * inject_Z (Z.of_nat (List.length l)) <= qsum l <= hi * inject_Z (Z.of_nat (List.length l)))%Q).
  { clear N. induction l as [|y l IH]; [cbn [List.length qsum fold_right Z.of_nat]; change (inject_Z 0) with 0%Q; lra|]. assert (Y := B y (or_introl eq_refl)). assert (I := IH (fun y I => B y (or_intror I))). cbn [List.length qsum fold_right]. fold (qsum l). rewrite Nat2Z.inj_succ. unfold Z.succ. rewrite inject_Z_plus. change (inject_Z 1) with 1%Q. nra. }
  assert (P : (0 < inject_Z (Z.of_nat (List.length l)))%Q) by (change 0%Q with (inject_Z 0); rewrite <- Zlt_Qlt; destruct l; [congruence|cbn; lia]).
  split; [apply Qle_shift_div_l|apply Qle_shift_div_r]; lra.
Qed.
Lemma poss_length l : forall s, List.length (poss l s) = List.length l.
Proof. induction l as [|u l IH]; intros s; cbn; [reflexivity|now rewrite IH]. Qed.
Lemma pos_bounds t : full [t] -> forall s, (inject_Z s <= pos t s <= inject_Z (s + nl t - 1))%Q /\ 1 <= nl t.
Proof.
  induction t as [k a b|k a b c F] using tree_rec'; intros FU s.
  - cbn [pos nl]. replace (s + 1 - 1) with s by lia. split; [lra|lia].
  - apply full_cons in FU as (FC & _ & NE). specialize (NE eq_refl). cbn [children] in *.
    assert (K : forall s, (forall y, In y (poss c s) -> (inject_Z s <= y <= inject_Z (s + nls c - 1))%Q) /\ (c <> [] -> 1 <= nls c)).
    { clear NE. induction F as [|u c U F IH]; intros s0; [split; [easy|congruence]|]. pose proof FC as FC'. apply full_cons in FC' as (F1 & F2 & F3). assert (FU : full [u]). { intros t I. apply FC. unfold nodes in *. cbn [flat_map] in *. rewrite app_nil_r in I. apply in_app_iff. now left. }
      destruct (U FU s0) as [B L]. rewrite nls_cons. pose proof (nls_nonneg c). split; [|lia]. intros y [<-|I].
      - split; [lra|]. assert (M : (inject_Z (s0 + nl u - 1) <= inject_Z (s0 + (nl u + nls c) - 1))%Q) by (rewrite <- Zle_Qle; lia). lra.
      - destruct (IH F2 (s0 + nl u)) as [Y _]. specialize (Y y I). assert (M : (inject_Z s0 <= inject_Z (s0 + nl u))%Q) by (rewrite <- Zle_Qle; lia). replace (s0 + (nl u + nls c) - 1) with (s0 + nl u + nls c - 1) by lia. lra. }
    destruct (K s) as [K1 K2]. rewrite pos_branch. cbn [nl]. fold (nls c). split; [|auto]. rewrite <- (poss_length c s). apply mean_bounds; [|exact K1]. destruct c; [congruence|discriminate].
Qed.

(** ** The dictionary *)
Lemma app_nodup {A} (a b : list A) : NoDup (a ++ b) -> NoDup a /\ NoDup b /\ forall x, In x a -> ~ In x b.
Proof.
  induction a as [|x a IH]; cbn; intros N; [repeat split; [constructor|exact N|easy]|]. inversion N as [|? ? X N']; subst. destruct (IH N') as (A1 & A2 & A3). repeat split; [constructor; [|exact A1]; intros C; apply X, in_app_iff; now left|exact A2|].
  intros y [<-|Y]; [intros C; apply X, in_app_iff; now right|now apply A3].
Qed.
Definition keys (l : list tree) : list Z := map key (nodes l).
Lemma keys_cons u l : keys (u :: l) = (key u :: keys (children u)) ++ keys l.
Proof. unfold keys, nodes. cbn [flat_map]. rewrite subtrees_eq, map_app. reflexivity. Qed.
Definition assigns (t : tree) : Prop := forall s d, full [t] -> NoDup (keys [t]) -> exists d', assign t s d = Some (s + nl t, d') /\
  (forall u r, occ [t] s u r -> find_y (key u) d' = Some (pos u r)) /\ forall k, ~ In k (keys [t]) -> find_y k d' = find_y k d.
Lemma full_one u l : full (u :: l) -> full [u].
Proof. intros F t I. apply F. unfold nodes in *. cbn [flat_map] in *. rewrite app_nil_r in I. apply in_app_iff. now left. Qed.
Lemma assign_list l : Forall assigns l -> forall s d, full l -> NoDup (keys l) -> exists d', assign_all l s d = Some (s + nls l, d') /\
  (forall u r, occ l s u r -> find_y (key u) d' = Some (pos u r)) /\ forall k, ~ In k (keys l) -> find_y k d' = find_y k d.
Proof.
  induction 1 as [|t l T F IH]; intros s d FU ND.
  - exists d. cbn [assign_all]. replace (s + nls []) with s by (cbn; lia). split; [reflexivity|]. split; [|auto]. intros u r H. inversion H.
  - rewrite keys_cons in ND. apply app_nodup in ND as (N1 & N2 & N3). assert (KT : keys [t] = key t :: keys (children t)) by (rewrite keys_cons; apply app_nil_r).
    destruct (T s d (full_one _ _ FU) ltac:(now rewrite KT)) as (d1 & E1 & G1 & R1). destruct (IH (s + nl t) d1 (proj1 (proj2 (full_cons _ _ FU))) N2) as (d2 & E2 & G2 & R2).
    exists d2. cbn [assign_all]. rewrite E1, E2, nls_cons. split; [now rewrite Z.add_assoc|]. split.
    + intros u r H. inversion H as [t' l' s'|t' l' s' u' r' K'|t' l' s' u' r' K']; subst.
      * rewrite R2; [apply G1; constructor|]. apply N3. now left.
      * now apply G2.
      * rewrite R2; [apply G1; now apply occ_in|]. apply N3. right. apply in_map. now apply occ_nodes in K'.
    + intros k K. rewrite keys_cons in K. rewrite R2, R1; [reflexivity|rewrite KT|]; intros C; apply K, in_app_iff; auto.
Qed.
Lemma find_poss d : forall c s, (forall u r, occ c s u r -> find_y (key u) d = Some (pos u r)) -> map_opt (fun u => find_y (key u) d) c = Some (poss c s).
Proof. induction c as [|u c IH]; intros s H; [reflexivity|]. cbn [map_opt poss]. rewrite (H u s ltac:(constructor)). rewrite (IH (s + nl u)); [reflexivity|]. intros v r K. apply H. now apply occ_next. Qed.
Lemma assign_tree t : assigns t.
Proof.
  induction t as [k a b|k a b c F] using tree_rec'; intros s d FU ND.
  - exists ((k, inject_Z s) :: d). split; [reflexivity|]. split.
    + intros u r H. inversion H as [t' l' s'|t' l' s' u' r' K'|t' l' s' u' r' K']; subst; [cbn; now rewrite Z.eqb_refl|inversion K'|inversion K'].
    + intros q Q. cbn. destruct (Z.eqb_spec k q) as [->|]; [|reflexivity]. exfalso. apply Q. now left.
  - pose proof FU as FU'. apply full_cons in FU' as (FC & _ & NE). specialize (NE eq_refl). rewrite keys_cons, app_nil_r in ND. inversion ND as [|? ? NK ND']; subst. cbn [children key] in *.
    destruct (assign_list c F s d FC ND') as (d1 & E1 & G1 & R1). pose proof (find_poss d1 c s G1) as M.
    exists ((k, pos (Branch k a b c) s) :: d1). change (assign (Branch k a b c) s d) with (obnd (assign_all c s d) (fun '(n, d) => obnd (map_opt (fun u => find_y (key u) d) c) (fun ys => obnd (mean ys) (fun y => Some (n, (k, y) :: d))))). rewrite E1. cbn [obnd]. rewrite M. cbn [obnd].
    assert (ME : mean (poss c s) = Some (pos (Branch k a b c) s)). { rewrite pos_branch, <- (poss_length c s). destruct c; [congruence|reflexivity]. } rewrite ME. cbn [obnd nl]. fold (nls c). split; [reflexivity|]. split.
    + intros u r H. inversion H as [t' l' s'|t' l' s' u' r' K'|t' l' s' u' r' K']; subst; [cbn [find_y key]; now rewrite Z.eqb_refl|inversion K'|]. cbn [children] in K'. cbn [find_y]. destruct (Z.eqb_spec k (key u)) as [->|]; [|now apply G1]. exfalso. apply NK. apply in_map. now apply occ_nodes in K'.
    + intros q Q. rewrite keys_cons, app_nil_r in Q. cbn [children key] in Q. cbn [find_y]. destruct (Z.eqb_spec k q) as [->|]; [exfalso; apply Q; now left|]. apply R1. intros C. apply Q. now right.
Qed.
Lemma assign_forest l : full l -> NoDup (keys l) -> exists d, assign_all l 0 [] = Some (nls l, d) /\ forall u r, occ l 0 u r -> find_y (key u) d = Some (pos u r).
Proof. intros F N. destruct (assign_list l ltac:(apply Forall_forall; intros; apply assign_tree) 0 [] F N) as (d & E & G & _). eauto. Qed.

(** ** Normalisation *)
Lemma qlow_spec l : forall a, let m := fold_left (fun m x => if Qle_bool m x then m else x) l a in (m <= a)%Q /\ (forall x, In x l -> (m <= x)%Q) /\ In m (a :: l).
Proof.
  induction l as [|x l IH]; intros a; cbn [fold_left]; [split; [lra|]; split; [easy|now left]|]. specialize (IH (if Qle_bool a x then a else x)). cbv zeta in *. destruct IH as (I1 & I2 & I3). set (m := fold_left _ l _) in *. destruct (Qle_bool a x) eqn:E.
  - apply Qle_bool_iff in E. split; [exact I1|]. split; [intros y [<-|Y]; [lra|auto]|]. destruct I3; [now left|right; now right].
  - assert (~ (a <= x)%Q) by (intros C; apply Qle_bool_iff in C; congruence). split; [lra|]. split; [intros y [<-|Y]; [lra|auto]|]. destruct I3; [right; now left|right; now right].
Qed.
Lemma qhigh_spec l : forall a, let m := fold_left (fun m x => if Qle_bool x m then m else x) l a in (a <= m)%Q /\ (forall x, In x l -> (x <= m)%Q) /\ In m (a :: l).
Proof.
  induction l as [|x l IH]; intros a; cbn [fold_left]; [split; [lra|]; split; [easy|now left]|]. specialize (IH (if Qle_bool x a then a else x)). cbv zeta in *. destruct IH as (I1 & I2 & I3). set (m := fold_left _ l _) in *. destruct (Qle_bool x a) eqn:E.
  - apply Qle_bool_iff in E. split; [exact I1|]. split; [intros y [<-|Y]; [lra|auto]|]. destruct I3; [now left|right; now right].
  - assert (~ (x <= a)%Q) by (intros C; apply Qle_bool_iff in C; congruence). split; [lra|]. split; [intros y [<-|Y]; [lra|auto]|]. destruct I3; [right; now left|right; now right].
Qed.
(** If the lowest entry is nought and the highest [h], all are stretched by the same factor. *)
Lemma normalize_spec ys h z t : In z ys -> In t ys -> (z == 0)%Q -> (t == h)%Q -> (forall y, In y ys -> (0 <= y <= h)%Q) ->
  exists ys', normalize ys = Some ys' /\ Forall2 (fun y y' => y' == if Qle_bool h 0 then y else y * (2 / h))%Q ys ys'.
Proof.
  intros Z0 T0 EZ ET B. unfold normalize. destruct ys as [|a l]; [easy|]. cbn [qlow obnd]. destruct (qlow_spec l a) as (M1 & M2 & M3). cbv zeta in *. set (m := fold_left _ l a) in *.
  assert (M0 : (m == 0)%Q). { pose proof (B m M3). assert (m <= z)%Q by (destruct Z0 as [<-|Z0]; [exact M1|now apply M2]). lra. }
  cbn [map qhigh obnd]. destruct (qhigh_spec (map (fun y => y - m)%Q l) (a - m)%Q) as (H1 & H2 & H3). cbv zeta in *. set (g := fold_left _ (map (fun y => y - m)%Q l) (a - m)%Q) in *.
  assert (GH : (g == h)%Q).
  { assert (IN : In g (map (fun y => y - m)%Q (a :: l))) by exact H3. apply in_map_iff in IN as (y & E & Y). pose proof (B y Y) as BY. assert (U : (t - m <= g)%Q) by (destruct T0 as [<-|T0]; [exact H1|apply H2; now apply (in_map (fun y => y - m)%Q)]). assert (E' : (g == y - m)%Q) by (rewrite E; reflexivity). lra. }
  assert (QB : Qle_bool g 0 = Qle_bool h 0). { destruct (Qle_bool g 0) eqn:E1, (Qle_bool h 0) eqn:E2; try reflexivity; [apply Qle_bool_iff in E1; rewrite GH in E1; apply Qle_bool_iff in E1|apply Qle_bool_iff in E2; rewrite <- GH in E2; apply Qle_bool_iff in E2]; congruence. }
  rewrite QB. eexists. split; [reflexivity|]. destruct (Qle_bool h 0) eqn:E.
  - change (Forall2 (fun y y' => y' == y)%Q (a :: l) (map (fun y => y - m)%Q (a :: l))). clear - M0. induction (a :: l) as [|y ys IH]; cbn [map]; constructor; [lra|exact IH].
  - assert (P : (0 < h)%Q) by (destruct (Qlt_le_dec 0 h) as [|C]; [assumption|]; apply Qle_bool_iff in C; congruence).
    change (Forall2 (fun y y' => y' == y * (2 / h))%Q (a :: l) (map (fun y => y / g * 2)%Q (map (fun y => y - m)%Q (a :: l)))). clear - M0 GH P. induction (a :: l) as [|y ys IH]; cbn [map]; constructor; [rewrite GH, M0; field; lra|exact IH].
Qed.
