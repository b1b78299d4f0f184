(** C224-C226: the drawing of a bifurcation graph. *)
From Coq Require Import QArith Lqa Lia Permutation.
From Verif Require Import Base TextModel VaspModel PlotModel PlotProofs.
Local Open Scope Z_scope.

(** A graph that can be drawn: [order] holds every node below the roots once, keys are unique, a reducible node has
    children, and the (rounded) value of a child is above that of its parent. *)
Record drawable (r4 : Q -> Q) (roots order : list tree) : Prop := {
  d_some : roots <> [];
  d_nodes : Permutation order (nodes roots);
  d_keys : NoDup (map key order);
  d_full : forall t, In t order -> is_leaf t = false -> children t <> [];
  d_rise : forall t u, In t order -> In u (children t) -> (r4 (low t) < r4 (low u))%Q }.
(** The height at which a node is drawn, and its place. *)
Definition height (order : list tree) (fig : figure) (t : tree) (y : Q) : Prop := exists i, nth_error order i = Some t /\ nth_error (f_y fig) i = Some y.
Definition leaves (l : list tree) : list tree := filter is_leaf (nodes l).
Definition between (a b x : Q) : Prop := (a <= x <= b \/ b <= x <= a)%Q.
Definition on (s : segment) (p : point) : Prop := let '((ax, ay), (bx, b_y)) := s in between ax bx (fst p) /\ between ay b_y (snd p).
Definition inside (b : box) (p : point) : Prop := (b_left b <= fst p <= b_right b /\ b_bottom b <= snd p <= b_top b)%Q.
(** The line from a node to its child: up or down, then right. *)
Definition line (r4 : Q -> Q) (order : list tree) (fig : figure) (t u : tree) (s : segment) : Prop := exists py cy, height order fig t py /\ height order fig u cy /\
  (s = ((r4 (low t), py), (r4 (low t), cy)) \/ s = ((r4 (low t), cy), (r4 (low u), cy))).
Definition place (r4 : Q -> Q) (order : list tree) (fig : figure) (t : tree) (p : point) : Prop := exists y, height order fig t y /\ (fst p == r4 (low t) /\ snd p == y)%Q.

Lemma map_opt_all {A B} (f : A -> option B) l : (forall a, In a l -> exists b, f a = Some b) -> exists r, map_opt f l = Some r.
Proof. induction l as [|a l IH]; intros H; [eexists; reflexivity|]. destruct (H a (or_introl eq_refl)) as (b & B'). destruct (IH (fun x X => H x (or_intror X))) as (r & R). exists (b :: r). cbn [map_opt]. now rewrite B', R. Qed.
Lemma map_opt_iff {A B} (f : A -> option B) l : forall r, map_opt f l = Some r -> forall b, In b r <-> exists a, In a l /\ f a = Some b.
Proof.
  induction l as [|a l IH]; cbn [map_opt]; intros r E b; [injection E as <-; split; [easy|intros (? & [] & _)]|]. destruct (f a) as [b0|] eqn:F; [|discriminate]. destruct (map_opt f l) as [r0|]; [|discriminate]. injection E as <-. cbn [In]. rewrite (IH r0 eq_refl b). split.
  - intros [->|(x & X & Y)]; [exists a; auto|exists x; auto].
  - intros (x & [<-|X] & Y); [left; congruence|right; exists x; auto].
Qed.
Lemma map_opt_nth {A B} (f : A -> option B) l : forall r, map_opt f l = Some r -> forall i a, nth_error l i = Some a -> exists b, f a = Some b /\ nth_error r i = Some b.
Proof.
  induction l as [|x l IH]; cbn [map_opt]; intros r E i a N; [destruct i; discriminate|]. destruct (f x) as [b0|] eqn:F; [|discriminate]. destruct (map_opt f l) as [r0|]; [|discriminate]. injection E as <-. destruct i as [|i]; cbn in N |- *; [injection N as <-; eauto|]. now apply (IH r0 eq_refl).
Qed.
Lemma map_opt_length {A B} (f : A -> option B) l : forall r, map_opt f l = Some r -> List.length r = List.length l.
Proof. induction l as [|a l IH]; cbn [map_opt]; intros r E; [injection E as <-; reflexivity|]. destruct (f a); [|discriminate]. destruct (map_opt f l) as [r0|]; [|discriminate]. injection E as <-. cbn. now rewrite (IH r0). Qed.
Lemma forall2_nth {A B} (R : A -> B -> Prop) l r : Forall2 R l r -> forall i a, nth_error l i = Some a -> exists b, nth_error r i = Some b /\ R a b.
Proof. induction 1 as [|a b l r H F IH]; intros i x N; [destruct i; discriminate|]. destruct i as [|i]; cbn in *; [injection N as <-; eauto|auto]. Qed.
Lemma forall2_len {A B} (R : A -> B -> Prop) l r : Forall2 R l r -> List.length r = List.length l.
Proof. induction 1; cbn; congruence. Qed.

Lemma leaves_cons t l : leaves (t :: l) = (if is_leaf t then [t] else leaves (children t)) ++ leaves l.
Proof. unfold leaves, nodes. cbn [flat_map]. rewrite subtrees_eq, filter_app. cbn [filter]. destruct t; reflexivity. Qed.
Lemma leaves_count l : Z.of_nat (List.length (leaves l)) = nls l.
Proof.
  assert (T : forall t, Z.of_nat (List.length (if is_leaf t then [t] else leaves (children t))) = nl t).
  { induction t as [k a b|k a b c F] using tree_rec'; [reflexivity|]. cbn [is_leaf children nl]. fold (nls c). induction F as [|u c U F IH]; [reflexivity|]. rewrite leaves_cons, app_length, nls_cons. lia. }
  induction l as [|t l IH]; [reflexivity|]. rewrite leaves_cons, app_length, nls_cons. specialize (T t). lia.
Qed.
Lemma leaves_occ l : forall s i t, nth_error (leaves l) i = Some t -> occ l s t (s + Z.of_nat i).
Proof.
  assert (T : forall t s i u, nth_error (if is_leaf t then [t] else leaves (children t)) i = Some u -> u = t /\ i = 0%nat \/ occ (children t) s u (s + Z.of_nat i)).
  { induction t as [k a b|k a b c F] using tree_rec'; intros s i u N; cbn [is_leaf children] in *; [destruct i as [|[|]]; [injection N as <-; auto|discriminate..]|]. right. revert s i N. induction F as [|t c T F IH]; intros s i N; [destruct i; discriminate|]. rewrite leaves_cons in N. set (h := if is_leaf t then [t] else leaves (children t)) in *.
    assert (H : Z.of_nat (List.length h) = nl t). { pose proof (leaves_count [t]) as L. rewrite leaves_cons in L. fold h in L. rewrite app_length in L. cbn in L. lia. }
    destruct (Nat.lt_ge_cases i (List.length h)) as [L|L].
    - rewrite nth_error_app1 in N by exact L. destruct (T s i u N) as [[-> ->]|O]; [replace (s + Z.of_nat 0) with s by lia; constructor|now apply occ_in].
    - rewrite nth_error_app2 in N by exact L. apply occ_next. replace (s + Z.of_nat i) with (s + nl t + Z.of_nat (i - List.length h)) by lia. now apply IH. }
  induction l as [|t l IH]; intros s i u N; [destruct i; discriminate|]. rewrite leaves_cons in N. set (h := if is_leaf t then [t] else leaves (children t)) in *.
  assert (H : Z.of_nat (List.length h) = nl t). { pose proof (leaves_count [t]) as L. rewrite leaves_cons in L. fold h in L. rewrite app_length in L. cbn in L. lia. }
  destruct (Nat.lt_ge_cases i (List.length h)) as [L|L].
  - rewrite nth_error_app1 in N by exact L. destruct (T t s i u N) as [[-> ->]|O]; [replace (s + Z.of_nat 0) with s by lia; constructor|now apply occ_in].
  - rewrite nth_error_app2 in N by exact L. apply occ_next. replace (s + Z.of_nat i) with (s + nl t + Z.of_nat (i - List.length h)) by lia. now apply IH.
Qed.
Lemma leaf_in l t : In t (leaves l) -> is_leaf t = true.
Proof. unfold leaves. intros I. now apply filter_In in I. Qed.
Lemma at_key_nth : forall order ys i t y, NoDup (map key order) -> nth_error order i = Some t -> nth_error ys i = Some y -> at_key (key t) order ys = Some y.
Proof.
  induction order as [|o order IH]; intros ys i t y N T Y; [destruct i; discriminate|]. destruct ys as [|z ys]; [destruct i; discriminate|]. inversion N as [|? ? N1 N2]; subst. cbn [at_key]. destruct i as [|i]; cbn in T, Y.
  - injection T as ->. injection Y as ->. now rewrite Z.eqb_refl.
  - destruct (Z.eqb_spec (key o) (key t)) as [E|]; [|now apply (IH ys i)]. exfalso. apply N1. rewrite E. apply in_map. eapply nth_error_In, T.
Qed.

Section Drawing.
Variable r4 : Q -> Q.
Variables roots order : list tree.
Hypothesis D : drawable r4 roots order.
Let n := nls roots.
Notation x := (fun t => r4 (low t)).
Lemma in_order t : In t order <-> In t (nodes roots).
Proof. split; apply Permutation_in; [apply (d_nodes _ _ _ D)|apply Permutation_sym, (d_nodes _ _ _ D)]. Qed.
Lemma roots_full : full roots.
Proof. intros t I L. apply (d_full _ _ _ D); [now apply in_order|exact L]. Qed.
Lemma roots_keys : NoDup (keys roots).
Proof. unfold keys. eapply Permutation_NoDup; [|exact (d_keys _ _ _ D)]. apply Permutation_map, (d_nodes _ _ _ D). Qed.
Lemma occ_pos t r : occ roots 0 t r -> (inject_Z r <= pos t r <= inject_Z (r + nl t - 1))%Q /\ 1 <= nl t /\ 0 <= r /\ r + nl t <= n.
Proof.
  intros O. assert (F : full [t]). { destruct (full_sub roots roots_full 0 t r O) as [F N]. intros u I. unfold nodes in I. cbn [flat_map] in I. rewrite app_nil_r, subtrees_eq in I. destruct I as [<-|I]; [exact N|now apply F]. }
  destruct (pos_bounds t F r) as [B L]. apply occ_bounds in O. unfold n. auto with zarith.
Qed.
Lemma n_pos : 1 <= n.
Proof. assert (E : exists t, In t roots) by (pose proof (d_some _ _ _ D) as S; destruct roots as [|t l]; [congruence|exists t; now left]). destruct E as (t & T). destruct (top_ex t roots T 0) as (r & O). apply top_occ, occ_pos in O. lia. Qed.
Lemma child_in t u : In t order -> In u (children t) -> In u order.
Proof.
  intros T U. apply in_order in T. apply in_order. destruct (occ_ex t roots T 0) as (r & R). destruct (top_ex u (children t) U r) as (q & K). apply top_occ in K. eapply occ_nodes, occ_trans; eauto.
Qed.
Lemma below_rise t r v q : occ roots 0 t r -> occ (children t) r v q -> (x t < x v)%Q.
Proof.
  intros O K. assert (S : forall l s v q, occ l s v q -> (forall c, In c l -> In c order /\ (x t < x c)%Q) -> (x t < x v)%Q).
  { clear K v q. induction 1 as [c l s|c l s v q H IH|c l s v q H IH]; intros B; [apply B; now left|apply IH; intros e E; apply B; now right|]. apply IH. intros e E. destruct (B c (or_introl eq_refl)) as [B1 B2]. split; [now apply (child_in c)|]. pose proof (d_rise _ _ _ D c e B1 E). lra. }
  apply (S _ _ _ _ K). intros c C. apply occ_nodes, in_order in O. split; [now apply (child_in t)|now apply (d_rise _ _ _ D)].
Qed.

Definition scale : Q := if Qle_bool (inject_Z (n - 1)) 0 then 1%Q else (2 / inject_Z (n - 1))%Q.
Lemma scale_pos : (0 < scale)%Q.
Proof.
  unfold scale. destruct (Qle_bool (inject_Z (n - 1)) 0) eqn:E; [lra|]. assert (P : (0 < inject_Z (n - 1))%Q) by (destruct (Qlt_le_dec 0 (inject_Z (n - 1))) as [|C]; [assumption|]; apply Qle_bool_iff in C; congruence). apply Qlt_shift_div_l; lra.
Qed.
Lemma plot_ex : exists fig, get_plot r4 roots order = Some fig /\ List.length (f_y fig) = List.length order /\
  (forall t r y, occ roots 0 t r -> height order fig t y -> (y == pos t r * scale)%Q) /\
  (forall s, In s (f_lines fig) <-> exists t u, In t order /\ In u (children t) /\ line r4 order fig t u s) /\
  (forall b, In b (f_boxes fig) <-> exists t y, In t order /\ is_leaf t = true /\ height order fig t y /\ b = box_of r4 (2 / inject_Z n) t y).
Proof.
  destruct (assign_forest roots roots_full roots_keys) as (d & E & G). unfold get_plot. rewrite E. cbn [obnd].
  destruct (map_opt_all (fun t => find_y (key t) d) order) as (ys & Y). { intros t T. apply in_order in T. destruct (occ_ex t roots T 0) as (r & R). exists (pos t r). now apply G. }
  rewrite Y. cbn [obnd]. pose proof n_pos as NP.
  assert (LC := leaves_count roots). fold n in LC.
  assert (LF : forall r, 0 <= r < n -> exists t, In t order /\ is_leaf t = true /\ occ roots 0 t r /\ In (inject_Z r) ys).
  { intros r R. destruct (nth_error (leaves roots) (Z.to_nat r)) as [t|] eqn:N; [|apply nth_error_None in N; lia]. pose proof (leaves_occ roots 0 _ _ N) as O. replace (0 + Z.of_nat (Z.to_nat r)) with r in O by lia. apply nth_error_In, leaf_in in N. exists t. pose proof (occ_nodes _ _ _ _ O) as I. apply in_order in I. split; [exact I|]. split; [exact N|]. split; [exact O|].
    apply (proj2 (map_opt_iff _ _ _ Y _)). exists t. split; [exact I|]. rewrite (G t r O). destruct t; [reflexivity|discriminate N]. }
  destruct (LF 0 ltac:(lia)) as (ta & _ & _ & _ & IA). destruct (LF (n - 1) ltac:(lia)) as (tb & _ & _ & _ & IB).
  destruct (normalize_spec ys (inject_Z (n - 1)) _ _ IA IB) as (ys' & N & F2); [reflexivity|reflexivity| |].
  { intros y I. apply (proj1 (map_opt_iff _ _ _ Y _)) in I as (t & T & K). apply in_order in T. destruct (occ_ex t roots T 0) as (r & O). rewrite (G t r O) in K. injection K as <-. destruct (occ_pos t r O) as (B & L1 & L2 & L3).
    assert (M1 : (inject_Z 0 <= inject_Z r)%Q) by (rewrite <- Zle_Qle; lia). assert (M2 : (inject_Z (r + nl t - 1) <= inject_Z (n - 1))%Q) by (rewrite <- Zle_Qle; lia). change (inject_Z 0) with 0%Q in M1. lra. }
  rewrite N. cbn [obnd].
  assert (FL : Z.of_nat (List.length (filter is_leaf order)) = n). { rewrite <- LC. f_equal. apply Permutation_length. unfold leaves. assert (PF : forall a b : list tree, Permutation a b -> Permutation (filter is_leaf a) (filter is_leaf b)) by (induction 1 as [|q a b P IH|q w a|a b c P IH P2 IH2]; cbn [filter]; [constructor|destruct (is_leaf q); auto|destruct (is_leaf q), (is_leaf w); auto using perm_swap|eapply perm_trans; eauto]). apply PF, (d_nodes _ _ _ D). }
  destruct (List.length (filter is_leaf order)) as [|m] eqn:LM; [cbn in FL; lia|].
  assert (HT : forall i t, nth_error order i = Some t -> exists y, nth_error ys' i = Some y /\ forall r, occ roots 0 t r -> (y == pos t r * scale)%Q).
  { intros i t T. destruct (map_opt_nth _ _ _ Y i t T) as (y & Y1 & Y2). destruct (forall2_nth _ _ _ F2 i y Y2) as (y' & Z1 & Z2). exists y'. split; [exact Z1|]. intros r O. rewrite (G t r O) in Y1. injection Y1 as <-. rewrite Z2. unfold scale. destruct (Qle_bool _ 0); [ring|reflexivity]. }
  assert (HK : forall t, In t order -> exists y, at_key (key t) order ys' = Some y /\ exists i, nth_error order i = Some t /\ nth_error ys' i = Some y).
  { intros t T. apply In_nth_error in T as (i & T). destruct (HT i t T) as (y & Y1 & _). exists y. split; [|exists i; auto]. apply (at_key_nth _ _ i); [exact (d_keys _ _ _ D)|exact T|exact Y1]. }
  assert (HU : forall t y, (exists i, nth_error order i = Some t /\ nth_error ys' i = Some y) -> at_key (key t) order ys' = Some y). { intros t y (i & T & Y1). now apply (at_key_nth _ _ i); [exact (d_keys _ _ _ D)| |]. }
  destruct (map_opt_all (lines_of r4 order ys') (filter (fun t => negb (is_leaf t)) order)) as (ls & LS).
  { intros t T. apply filter_In in T as [T _]. unfold lines_of. destruct (map_opt_all (lines_to r4 order ys' t) (children t)) as (l & L); [|rewrite L; eexists; reflexivity].
    intros u U. unfold lines_to. destruct (HK t T) as (y & -> & _). destruct (HK u (child_in t u T U)) as (z & -> & _). eexists; reflexivity. }
  rewrite LS. cbn [obnd]. eexists. split; [reflexivity|]. unfold height, line. cbn [f_y f_lines f_boxes]. split; [rewrite (forall2_len _ _ _ F2); exact (map_opt_length _ _ _ Y)|]. split; [|split].
  - intros t r y O (i & T & Y1). destruct (HT i t T) as (y' & Y2 & K). rewrite Y1 in Y2. injection Y2 as <-. now apply K.
  - intros s. rewrite in_concat. split.
    + intros (l & L & S). apply (proj1 (map_opt_iff _ _ _ LS _)) in L as (t & T & K). apply filter_In in T as [T _]. exists t. unfold lines_of in K. destruct (map_opt (lines_to r4 order ys' t) (children t)) as [l'|] eqn:M; [|discriminate]. injection K as <-. apply in_concat in S as (g & GI & S). apply (proj1 (map_opt_iff _ _ _ M _)) in GI as (u & U & K). exists u. split; [exact T|]. split; [exact U|].
      unfold lines_to in K. destruct (HK t T) as (y & AY & HY). rewrite AY in K. destruct (HK u (child_in t u T U)) as (z & AZ & HZ). rewrite AZ in K. cbn [obnd] in K. injection K as <-. exists y, z. split; [exact HY|]. split; [exact HZ|]. destruct S as [<-|[<-|[]]]; auto.
    + intros (t & u & T & U & py & cy & HP & HC & S). destruct (map_opt_all (lines_to r4 order ys' t) (children t)) as (l & L). { intros v V. unfold lines_to. destruct (HK t T) as (y & -> & _). destruct (HK v (child_in t v T V)) as (z & -> & _). eexists; reflexivity. }
      exists (List.concat l). split; [apply (proj2 (map_opt_iff _ _ _ LS _)); exists t; split; [apply filter_In; split; [exact T|destruct t; [contradiction|reflexivity]]|unfold lines_of; now rewrite L]|]. apply in_concat. exists [((x t, py), (x t, cy)); ((x t, cy), (x u, cy))]. split; [apply (proj2 (map_opt_iff _ _ _ L _)); exists u; split; [exact U|]; unfold lines_to; now rewrite (HU t py HP), (HU u cy HC)|]. destruct S as [->| ->]; cbn; auto.
  - intros b. rewrite in_map_iff. rewrite <- FL. split.
    + intros ([t y] & <- & I). apply filter_In in I as [I L]. apply In_nth_error in I as (i & I). exists t, y. assert (CN : forall (a : list tree) (b : list Q) i t y, nth_error (combine a b) i = Some (t, y) -> nth_error a i = Some t /\ nth_error b i = Some y) by (induction a as [|a0 a IH]; intros [|b0 b'] [|j] t0 y0 C; cbn in C |- *; try discriminate; [injection C as -> ->; auto|auto]). apply CN in I as [I1 I2]. split; [eapply nth_error_In, I1|]. split; [exact L|]. split; [exists i; auto|reflexivity].
    + intros (t & y & T & L & (i & I1 & I2) & ->). exists (t, y). split; [reflexivity|]. apply filter_In. split; [|exact L]. apply (nth_error_In _ i). assert (CN : forall (a : list tree) (b : list Q) i t y, nth_error a i = Some t -> nth_error b i = Some y -> nth_error (combine a b) i = Some (t, y)) by (induction a as [|a0 a IH]; intros [|b0 b'] [|j] t0 y0 C1 C2; cbn in C1, C2 |- *; try discriminate; [congruence|auto]). now apply CN.
Qed.

(** ** Geometry *)
Variable fig : figure.
Hypothesis G : get_plot r4 roots order = Some fig.
Notation at_height := (height order fig).
Lemma fig_facts : List.length (f_y fig) = List.length order /\
  (forall t r y, occ roots 0 t r -> at_height t y -> (y == pos t r * scale)%Q) /\
  (forall s, In s (f_lines fig) <-> exists t u, In t order /\ In u (children t) /\ line r4 order fig t u s) /\
  (forall b, In b (f_boxes fig) <-> exists t y, In t order /\ is_leaf t = true /\ at_height t y /\ b = box_of r4 (2 / inject_Z n) t y).
Proof. destruct plot_ex as (f & E & K). rewrite G in E. injection E as <-. exact K. Qed.
Lemma height_ex t : In t order -> exists y, at_height t y.
Proof.
  intros T. apply In_nth_error in T as (i & T). destruct fig_facts as [L _]. destruct (nth_error (f_y fig) i) as [y|] eqn:E; [exists y, i; auto|]. apply nth_error_None in E. assert (i < List.length order)%nat by (apply nth_error_Some; congruence). lia.
Qed.
(** The band of heights of a node and all below it. *)
Definition band (t : tree) (r : Z) (y : Q) : Prop := (inject_Z r * scale <= y <= inject_Z (r + nl t - 1) * scale)%Q.
Lemma height_band t r y : occ roots 0 t r -> at_height t y -> band t r y.
Proof.
  intros O H. destruct fig_facts as (_ & P & _). unfold band. pose proof (P t r y O H) as E. destruct (occ_pos t r O) as (B & _). pose proof scale_pos. split; rewrite E; apply Qmult_le_compat_r; lra.
Qed.
Lemma band_sub t r u q y : occ (children t) r u q -> band u q y -> band t r y.
Proof.
  intros O [B1 B2]. apply occ_bounds in O. pose proof (nls_children t). pose proof scale_pos. unfold band.
  assert (M1 : (inject_Z r * scale <= inject_Z q * scale)%Q) by (apply Qmult_le_compat_r; [rewrite <- Zle_Qle; lia|lra]). assert (M2 : (inject_Z (q + nl u - 1) * scale <= inject_Z (r + nl t - 1) * scale)%Q) by (apply Qmult_le_compat_r; [rewrite <- Zle_Qle; lia|lra]). lra.
Qed.
Lemma band_apart t r u q y z : r + nl t <= q -> band t r y -> band u q z -> (y + scale <= z)%Q.
Proof.
  intros L [_ B1] [B2 _]. pose proof scale_pos. assert (M : (inject_Z (r + nl t) * scale <= inject_Z q * scale)%Q) by (apply Qmult_le_compat_r; [rewrite <- Zle_Qle; lia|lra]).
  unfold Z.sub in B1. rewrite inject_Z_plus in B1. change (inject_Z (- (1))) with (-(1))%Q in B1. lra.
Qed.
(** Where a line runs. *)
Lemma line_range t r u q s p cy : occ roots 0 t r -> top (children t) r u q -> In t order -> line r4 order fig t u s -> on s p -> at_height u cy ->
  (x t <= fst p <= x u)%Q /\ band t r (snd p) /\ (fst p == x t \/ snd p == cy)%Q.
Proof.
  intros O T I (py & cy' & HP & HC & S) P HU. pose proof (top_in _ _ _ _ T) as UI. apply top_occ in T. pose proof (occ_trans _ _ _ _ _ _ O T) as OU. pose proof (height_band t r py O HP) as BP. pose proof (band_sub _ _ _ _ _ T (height_band u q cy' OU HC)) as BC. pose proof (below_rise t r u q O T) as R. cbv beta in R.
  destruct fig_facts as (_ & PF & _). pose proof (PF u q cy OU HU) as E1. pose proof (PF u q cy' OU HC) as E2. unfold band in *.
  destruct S as [-> | ->]; cbn [on] in P; unfold between in P; destruct P as [P1 P2].
  - split; [lra|]. split; [destruct P2; lra|]. left. destruct P1; lra.
  - split; [destruct P1; lra|]. split; [destruct P2; lra|]. right. destruct P2; lra.
Qed.
Lemma apart_half t r u s t' r' u' s' p : occ roots 0 t r -> occ roots 0 t' r' -> In t order -> In t' order -> In u (children t) -> In u' (children t') ->
  line r4 order fig t u s -> line r4 order fig t' u' s' -> on s p -> on s' p -> occ (children t) r t' r' -> u = t' /\ place r4 order fig t' p.
Proof.
  intros O O' I I' U U' L L' P P' B. destruct (top_ex u (children t) U r) as (q & T). destruct (top_ex u' (children t') U' r') as (q' & T'). destruct (height_ex u (child_in t u I U)) as (cy & HU). destruct (height_ex u' (child_in t' u' I' U')) as (cy' & HU').
  destruct (line_range t r u q s p cy O T I L P HU) as (X1 & B1 & C1). destruct (line_range t' r' u' q' s' p cy' O' T' I' L' P' HU') as (X2 & B2 & C2).
  pose proof (below_rise t r t' r' O B) as R. cbv beta in *. assert (SU : (snd p == cy)%Q) by lra. pose proof (occ_trans _ _ _ _ _ _ O (top_occ _ _ _ _ T)) as OU.
  pose proof (height_band u q cy OU HU) as BU. assert (BU' : band u q (snd p)) by (unfold band in *; lra). pose proof scale_pos.
  destruct (top_tri (children t) r u q t' r' T B) as [[-> ->]|[K|[K|K]]].
  - split; [reflexivity|]. exists cy. split; [exact HU|]. split; lra.
  - pose proof (band_apart _ _ _ _ _ _ K BU' B2). lra.
  - pose proof (band_apart _ _ _ _ _ _ K B2 BU'). lra.
  - pose proof (below_rise u q t' r' OU K). cbv beta in *. lra.
Qed.
Lemma lines_apart t u t' u' s s' p : In t order -> In t' order -> In u (children t) -> In u' (children t') -> t <> t' ->
  line r4 order fig t u s -> line r4 order fig t' u' s' -> on s p -> on s' p -> u = t' /\ place r4 order fig t' p \/ u' = t /\ place r4 order fig t p.
Proof.
  intros I I' U U' NE L L' P P'. destruct (occ_ex t roots (proj1 (in_order t) I) 0) as (r & O). destruct (occ_ex t' roots (proj1 (in_order t') I') 0) as (r' & O').
  destruct (top_ex u (children t) U r) as (q & T). destruct (top_ex u' (children t') U' r') as (q' & T'). destruct (height_ex u (child_in t u I U)) as (cy & HU). destruct (height_ex u' (child_in t' u' I' U')) as (cy' & HU').
  destruct (line_range t r u q s p cy O T I L P HU) as (_ & B1 & _). destruct (line_range t' r' u' q' s' p cy' O' T' I' L' P' HU') as (_ & B2 & _). pose proof scale_pos.
  destruct (occ_tri roots 0 t r t' r' O O') as [[C _]|[K|[K|[K|K]]]].
  - contradiction.
  - pose proof (band_apart _ _ _ _ _ _ K B1 B2). lra.
  - pose proof (band_apart _ _ _ _ _ _ K B2 B1). lra.
  - left. now apply (apart_half t r u s t' r' u' s' p).
  - right. now apply (apart_half t' r' u' s' t r u s p).
Qed.
Lemma top_top l s u r v q : top l s u r -> top l s v q -> u = v /\ r = q \/ r + nl u <= q \/ q + nl v <= r.
Proof.
  intros H. revert v q. induction H as [t l s|t l s u r H IH]; intros v q K; inversion K as [t' l' s'|t' l' s' u' r' K']; subst.
  - auto.
  - apply top_occ, occ_bounds in K'. right. left. lia.
  - apply top_occ, occ_bounds in H. right. right. lia.
  - now apply IH.
Qed.
Lemma siblings_apart t u u' s s' p : In t order -> In u (children t) -> In u' (children t) -> u <> u' -> line r4 order fig t u s -> line r4 order fig t u' s' -> on s p -> on s' p -> (fst p == x t)%Q.
Proof.
  intros I U U' NE L L' P P'. destruct (occ_ex t roots (proj1 (in_order t) I) 0) as (r & O).
  destruct (top_ex u (children t) U r) as (q & T). destruct (top_ex u' (children t) U' r) as (q' & T'). destruct (height_ex u (child_in t u I U)) as (cy & HU). destruct (height_ex u' (child_in t u' I U')) as (cy' & HU').
  destruct (line_range t r u q s p cy O T I L P HU) as (_ & _ & [C1|C1]); [exact C1|]. destruct (line_range t r u' q' s' p cy' O T' I L' P' HU') as (_ & _ & [C2|C2]); [exact C2|]. exfalso.
  pose proof (height_band u q cy (occ_trans _ _ _ _ _ _ O (top_occ _ _ _ _ T)) HU) as B1. pose proof (height_band u' q' cy' (occ_trans _ _ _ _ _ _ O (top_occ _ _ _ _ T')) HU') as B2. pose proof scale_pos.
  destruct (top_top _ _ _ _ _ _ T T') as [[C _]|[K|K]]; [contradiction| |].
  - pose proof (band_apart _ _ _ _ _ _ K B1 B2). lra.
  - pose proof (band_apart _ _ _ _ _ _ K B2 B1). lra.
Qed.
(** Boxes are less high than leaves are apart. *)
Lemma box_small t r u q : occ roots 0 t r -> occ roots 0 u q -> r + nl t <= q -> (2 / inject_Z n / 3 * 2 < scale)%Q.
Proof.
  intros O O' L. destruct (occ_pos t r O) as (_ & A & B & C). destruct (occ_pos u q O') as (_ & A' & B' & C'). assert (N : 2 <= n) by lia. assert (P : (2 <= inject_Z n)%Q) by (change 2%Q with (inject_Z 2); rewrite <- Zle_Qle; lia).
  unfold scale. unfold Z.sub. rewrite inject_Z_plus. change (inject_Z (- (1))) with (-(1))%Q. destruct (Qle_bool _ 0) eqn:E; [apply Qle_bool_iff in E; lra|].
  setoid_replace (2 / inject_Z n / 3 * 2)%Q with ((4 # 3) / inject_Z n)%Q by (field; lra). apply Qlt_shift_div_r; [lra|]. setoid_replace (2 / (inject_Z n + - (1)) * inject_Z n)%Q with (2 * inject_Z n / (inject_Z n + - (1)))%Q by (field; lra). apply Qlt_shift_div_l; [lra|]. lra.
Qed.
Lemma boxes_apart a b y z : In a order -> In b order -> is_leaf a = true -> is_leaf b = true -> a <> b -> at_height a y -> at_height b z ->
  (b_top (box_of r4 (2 / inject_Z n) a y) < b_bottom (box_of r4 (2 / inject_Z n) b z) \/ b_top (box_of r4 (2 / inject_Z n) b z) < b_bottom (box_of r4 (2 / inject_Z n) a y))%Q.
Proof.
  intros I J A B NE HA HB. destruct (occ_ex a roots (proj1 (in_order a) I) 0) as (r & O). destruct (occ_ex b roots (proj1 (in_order b) J) 0) as (q & O'). pose proof (height_band a r y O HA) as BA. pose proof (height_band b q z O' HB) as BB. unfold box_of. cbn [b_top b_bottom].
  destruct (occ_tri roots 0 a r b q O O') as [[C _]|[K|[K|[K|K]]]].
  - contradiction.
  - left. pose proof (band_apart _ _ _ _ _ _ K BA BB). pose proof (box_small _ _ _ _ O O' K). lra.
  - right. pose proof (band_apart _ _ _ _ _ _ K BB BA). pose proof (box_small _ _ _ _ O' O K). lra.
  - destruct a; [inversion K|discriminate A].
  - destruct b; [inversion K|discriminate B].
Qed.
Lemma box_line a y t u s p : In a order -> is_leaf a = true -> at_height a y -> In t order -> In u (children t) -> line r4 order fig t u s -> on s p -> inside (box_of r4 (2 / inject_Z n) a y) p ->
  u = a /\ place r4 order fig a p.
Proof.
  intros I A HA J U L P [N1 N2]. destruct (occ_ex a roots (proj1 (in_order a) I) 0) as (q & O). destruct (occ_ex t roots (proj1 (in_order t) J) 0) as (r & O'). pose proof (height_band a q y O HA) as BA.
  destruct (top_ex u (children t) U r) as (k & T). destruct (height_ex u (child_in t u J U)) as (cy & HU). destruct (line_range t r u k s p cy O' T J L P HU) as (X1 & B1 & C1). unfold box_of in N1, N2. cbn [b_left b_right b_top b_bottom] in N1, N2. cbv beta in *.
  assert (W : (0 < 2 / inject_Z n / 3)%Q). { pose proof n_pos. assert (0 < inject_Z n)%Q by (change 0%Q with (inject_Z 0); rewrite <- Zlt_Qlt; lia). apply Qlt_shift_div_l; [lra|]. setoid_replace (0 * 3)%Q with 0%Q by ring. apply Qlt_shift_div_l; lra. }
  destruct (occ_tri roots 0 t r a q O' O) as [[C _]|[K|[K|[K|K]]]].
  - subst t. destruct a; [contradiction|discriminate A].
  - pose proof (band_apart _ _ _ _ _ _ K B1 BA). pose proof (box_small _ _ _ _ O' O K). lra.
  - pose proof (band_apart _ _ _ _ _ _ K BA B1). pose proof (box_small _ _ _ _ O O' K). lra.
  - pose proof (below_rise t r a q O' K) as R. cbv beta in R. assert (SU : (snd p == cy)%Q) by lra. pose proof (occ_trans _ _ _ _ _ _ O' (top_occ _ _ _ _ T)) as OU. pose proof (height_band u k cy OU HU) as BU.
    destruct (top_tri (children t) r u k a q T K) as [[-> ->]|[M|[M|M]]].
    + split; [reflexivity|]. exists cy. split; [exact HU|]. split; lra.
    + pose proof (band_apart _ _ _ _ _ _ M BU BA). pose proof (box_small _ _ _ _ OU O M). lra.
    + pose proof (band_apart _ _ _ _ _ _ M BA BU). pose proof (box_small _ _ _ _ O OU M). lra.
    + pose proof (below_rise u k a q OU M). cbv beta in *. lra.
  - destruct a; [inversion K|discriminate A].
Qed.
Lemma leaf_height i t : nth_error (leaves roots) i = Some t -> exists y, at_height t y /\ (y == 2 * inject_Z (Z.of_nat i) / inject_Z (n - 1))%Q.
Proof.
  intros N. pose proof (leaves_occ roots 0 i t N) as O. rewrite Z.add_0_l in O. pose proof (leaf_in _ _ (nth_error_In _ _ N)) as L. pose proof (occ_nodes _ _ _ _ O) as I. apply in_order in I. destruct (height_ex t I) as (y & H). exists y. split; [exact H|]. destruct fig_facts as (_ & P & _). rewrite (P t _ y O H). replace (pos t (Z.of_nat i)) with (inject_Z (Z.of_nat i)) by (destruct t; [reflexivity|discriminate L]).
  destruct (occ_pos t _ O) as (_ & A & B & C). unfold scale. destruct (Qle_bool (inject_Z (n - 1)) 0) eqn:E.
  - apply Qle_bool_iff in E. change 0%Q with (inject_Z 0) in E. rewrite <- Zle_Qle in E. replace (n - 1) with 0 by lia. replace (Z.of_nat i) with 0 by lia. reflexivity.
  - unfold Qdiv. ring.
Qed.
Lemma branch_height t : In t order -> is_leaf t = false -> exists y ys, at_height t y /\ Forall2 at_height (children t) ys /\ (y * inject_Z (Z.of_nat (List.length ys)) == qsum ys)%Q.
Proof.
  intros I L. destruct (occ_ex t roots (proj1 (in_order t) I) 0) as (r & O). destruct (height_ex t I) as (y & H). exists y. destruct fig_facts as (_ & P & _). pose proof (P t r y O H) as E.
  assert (K : forall c s, (forall u q, top c s u q -> occ roots 0 u q /\ In u order) -> exists ys, Forall2 at_height c ys /\ (qsum ys == qsum (poss c s) * scale)%Q).
  { induction c as [|u c IH]; intros s F; [exists []; split; [constructor|cbn; ring]|]. destruct (F u s ltac:(constructor)) as [OU IU]. destruct (height_ex u IU) as (z & HZ). destruct (IH (s + nl u)) as (zs & Z1 & Z2); [intros v q V; apply F; now constructor|]. exists (z :: zs). split; [now constructor|]. cbn [qsum fold_right poss]. fold (qsum zs). fold (qsum (poss c (s + nl u))). rewrite Z2, (P u s z OU HZ). ring. }
  destruct (K (children t) r) as (ys & F & S). { intros u q T. split; [eapply occ_trans; [exact O|now apply top_occ]|]. apply (child_in t); [exact I|now apply top_in in T]. }
  exists ys. split; [exact H|]. split; [exact F|]. rewrite S, E, (forall2_len _ _ _ F). pose proof (d_full _ _ _ D t I L) as NE. destruct t as [|k a b c]; [discriminate|]. rewrite pos_branch. cbn [children] in *. field. change 0%Q with (inject_Z 0). rewrite inject_Z_injective. destruct c; [congruence|cbn; lia].
Qed.
Lemma height_range t y : at_height t y -> (0 <= y <= 2)%Q.
Proof.
  intros H. assert (I : In t order) by (destruct H as (i & A & _); eapply nth_error_In, A). destruct (occ_ex t roots (proj1 (in_order t) I) 0) as (r & O). destruct (height_band t r y O H) as [B1 B2]. destruct (occ_pos t r O) as (_ & A & B & C). pose proof scale_pos.
  assert (M1 : (inject_Z 0 * scale <= inject_Z r * scale)%Q) by (apply Qmult_le_compat_r; [rewrite <- Zle_Qle; lia|lra]). assert (M2 : (inject_Z (r + nl t - 1) * scale <= inject_Z (n - 1) * scale)%Q) by (apply Qmult_le_compat_r; [rewrite <- Zle_Qle; lia|lra]). change (inject_Z 0) with 0%Q in M1.
  assert (M3 : (inject_Z (n - 1) * scale <= 2)%Q). { unfold scale. destruct (Qle_bool (inject_Z (n - 1)) 0) eqn:E; [apply Qle_bool_iff in E; lra|]. assert (PP : (0 < inject_Z (n - 1))%Q) by (destruct (Qlt_le_dec 0 (inject_Z (n - 1))) as [|X]; [assumption|]; apply Qle_bool_iff in X; congruence). setoid_replace (inject_Z (n - 1) * (2 / inject_Z (n - 1)))%Q with 2%Q by (field; lra). lra. } lra.
Qed.
End Drawing.

(** C224: the leaves are drawn at equal distances between 0 and 2, in the order of the tree, and every branch at the mean
    height of its children. *)
Theorem C224_heights r4 roots order : drawable r4 roots order -> exists fig, get_plot r4 roots order = Some fig /\ List.length (f_y fig) = List.length order /\
  (forall i t, nth_error (leaves roots) i = Some t -> exists y, height order fig t y /\ (y == 2 * inject_Z (Z.of_nat i) / inject_Z (Z.of_nat (List.length (leaves roots)) - 1))%Q) /\
  (forall t, In t order -> is_leaf t = false -> exists y ys, height order fig t y /\ Forall2 (height order fig) (children t) ys /\ (y * inject_Z (Z.of_nat (List.length ys)) == qsum ys)%Q) /\
  forall t y, height order fig t y -> (0 <= y <= 2)%Q.
Proof.
  intros D. destruct (plot_ex r4 roots order D) as (fig & G & L & _). exists fig. split; [exact G|]. split; [exact L|]. rewrite leaves_count. split; [|split]; intros.
  - now apply (leaf_height r4 roots order D fig G).
  - now apply (branch_height r4 roots order D fig G).
  - now apply (height_range r4 roots order D fig G t).
Qed.
Print Assumptions C224_heights.
(** C225: the lines drawn are those from each node to its children; lines from different nodes meet only where one of
    these nodes is the child the other line ends at, and lines from one node share only the upright part. *)
Theorem C225_lines r4 roots order fig : drawable r4 roots order -> get_plot r4 roots order = Some fig ->
  forall s, In s (f_lines fig) <-> exists t u, In t order /\ In u (children t) /\ line r4 order fig t u s.
Proof. intros D G. now destruct (fig_facts r4 roots order D fig G) as (_ & _ & K & _). Qed.
Theorem C225_apart r4 roots order fig : drawable r4 roots order -> get_plot r4 roots order = Some fig ->
  forall t u t' u' s s' p, In t order -> In t' order -> In u (children t) -> In u' (children t') -> t <> t' -> line r4 order fig t u s -> line r4 order fig t' u' s' -> on s p -> on s' p ->
  u = t' /\ place r4 order fig t' p \/ u' = t /\ place r4 order fig t p.
Proof. intros D G t u t' u' s s' p. now apply (lines_apart r4 roots order D fig G). Qed.
Theorem C225_siblings r4 roots order fig : drawable r4 roots order -> get_plot r4 roots order = Some fig ->
  forall t u u' s s' p, In t order -> In u (children t) -> In u' (children t) -> u <> u' -> line r4 order fig t u s -> line r4 order fig t u' s' -> on s p -> on s' p -> (fst p == r4 (low t))%Q.
Proof. intros D G t u u' s s' p. now apply (siblings_apart r4 roots order D fig G). Qed.
Print Assumptions C225_lines.
Print Assumptions C225_apart.
Print Assumptions C225_siblings.
(** C226: every leaf has a box at its place, which spans its values or at least 1/100; boxes of different leaves are apart, and a line
    touches a box only where it ends. *)
Definition leaf_box (r4 : Q -> Q) (roots order : list tree) (fig : figure) (t : tree) (b : box) : Prop := exists y, height order fig t y /\
  b_left b = r4 (low t) /\ (b_left b + (1 # 100) <= b_right b /\ r4 (high t) <= b_right b /\ (b_right b == r4 (high t) \/ b_right b == b_left b + (1 # 100)) /\
  b_top b - y == y - b_bottom b /\ (b_top b - y) * (3 * inject_Z (Z.of_nat (List.length (leaves roots)))) == 2)%Q.
Lemma box_of_leaf r4 roots order fig t y : drawable r4 roots order -> height order fig t y -> leaf_box r4 roots order fig t (box_of r4 (2 / inject_Z (nls roots)) t y).
Proof.
  intros D H. exists y. split; [exact H|]. unfold box_of. cbn [b_left b_right b_top b_bottom]. split; [reflexivity|]. pose proof (n_pos r4 roots order D) as N. rewrite leaves_count. assert (P : (0 < inject_Z (nls roots))%Q) by (change 0%Q with (inject_Z 0); rewrite <- Zlt_Qlt; lia).
  destruct (Qle_bool (r4 (low t) + (1 # 100)) (r4 (high t))) eqn:E.
  - apply Qle_bool_iff in E. repeat split; [exact E|lra|left; reflexivity|ring|field; lra].
  - assert (~ (r4 (low t) + (1 # 100) <= r4 (high t))%Q) by (intros C; apply Qle_bool_iff in C; congruence). repeat split; [lra|lra|right; reflexivity|ring|field; lra].
Qed.
Theorem C226_boxes r4 roots order fig : drawable r4 roots order -> get_plot r4 roots order = Some fig ->
  (forall t, In t order -> is_leaf t = true -> exists b, In b (f_boxes fig) /\ leaf_box r4 roots order fig t b) /\
  (forall b, In b (f_boxes fig) -> exists t, In t order /\ is_leaf t = true /\ leaf_box r4 roots order fig t b) /\
  (forall b b' p, In b (f_boxes fig) -> In b' (f_boxes fig) -> inside b p -> inside b' p -> b = b') /\
  forall t u s b p, In t order -> In u (children t) -> line r4 order fig t u s -> In b (f_boxes fig) -> on s p -> inside b p -> leaf_box r4 roots order fig u b /\ place r4 order fig u p.
Proof.
  intros D G. pose proof (fig_facts r4 roots order D fig G) as (_ & _ & _ & K). repeat split.
  - intros t I L. destruct (height_ex r4 roots order D fig G t I) as (y & H). eexists. split; [apply K; exists t, y; eauto|now apply box_of_leaf].
  - intros b B. apply K in B as (t & y & I & L & H & ->). exists t. split; [exact I|]. split; [exact L|]. now apply box_of_leaf.
  - intros b b' p B B' [_ P] [_ P']. apply K in B as (t & y & I & L & H & ->). apply K in B' as (t' & y' & I' & L' & H' & ->).
    assert (TD : {key t = key t'} + {key t <> key t'}) by apply Z.eq_dec. destruct TD as [E|E].
    + destruct H as (i & A1 & A2), H' as (j & B1 & B2). pose proof (d_keys _ _ _ D) as ND. rewrite NoDup_nth_error in ND. assert (i = j) as <-. { apply ND; [rewrite map_length; apply nth_error_Some; congruence|]. rewrite !nth_error_map, A1, B1. cbn. now rewrite E. } assert (t = t') as <- by congruence. assert (y = y') as <- by congruence. reflexivity.
    + destruct (boxes_apart r4 roots order D fig G t t' y y' I I' L L' ltac:(congruence) H H') as [C|C]; lra.
  - apply K in H2 as (a & y & I & L & H' & ->). destruct (box_line r4 roots order D fig G a y t u s p I L H' H H0 H1 H3 H4) as [-> _]. now apply box_of_leaf.
  - apply K in H2 as (a & y & I & L & H' & ->). now destruct (box_line r4 roots order D fig G a y t u s p I L H' H H0 H1 H3 H4) as [-> X].
Qed.
Print Assumptions C226_boxes.

(** ** Examples *)
Definition t3 : tree := Branch 0 0 (1 # 2) [Leaf 1 (1 # 2) 1; Branch 2 (1 # 4) (1 # 2) [Leaf 3 (1 # 2) (501 # 1000); Leaf 4 (1 # 2) (3 # 4)]].
Definition order3 : list tree := nodes [t3; Leaf 5 0 1].
Example drawable_ex : drawable (fun q => q) [t3; Leaf 5 0 1] order3.
Proof.
  constructor; [discriminate|apply Permutation_refl|repeat constructor; cbn; intuition discriminate| |].
  - intros t I. cbn in I. repeat destruct I as [<-|I]; try discriminate; contradiction.
  - intros t u I U. cbn in I. repeat destruct I as [<-|I]; cbn in U; repeat destruct U as [<-|U]; try contradiction; reflexivity.
Qed.
Example C224_ex : exists fig, get_plot (fun q => q) [t3; Leaf 5 0 1] order3 = Some fig /\ Forall2 Qeq (f_y fig) [1 # 2; 0; 1; 2 # 3; 4 # 3; 2]%Q /\ List.length (f_lines fig) = 8%nat /\ List.length (f_boxes fig) = 4%nat.
Proof. eexists. split; [reflexivity|]. split; [|split; reflexivity]. repeat constructor. Qed.
