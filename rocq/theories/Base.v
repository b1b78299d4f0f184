(** Common vocabulary used by the models: finite ranges, arrays as lists,
    numpy-style indexing, rational sums.  No project code is modelled here
    except numpy's negative indexing convention. *)
From Coq Require Export ZArith QArith List Lia Lqa Bool Permutation Sorted Arith.
From Coq Require Import ZifyBool.
Export ListNotations.
#[export] Set Warnings "-notation-overridden,-deprecated-hint-without-locality".
Open Scope Z_scope.

(** ** Booleans on rationals *)

(** [a < b] on rationals as a boolean (Python's [a < b] on exact numbers). *)
Definition Qltb (a b : Q) : bool := negb (Qle_bool b a).

Lemma Qltb_lt a b : Qltb a b = true <-> (a < b)%Q.
Proof.
  unfold Qltb. rewrite negb_true_iff. split.
  - intro H. apply Qnot_le_lt. intro L. apply Qle_bool_iff in L. congruence.
  - intro H. destruct (Qle_bool b a) eqn:E; [|reflexivity].
    apply Qle_bool_iff in E. exfalso. apply (Qlt_not_le _ _ H E).
Qed.

Lemma Qltb_ge a b : Qltb a b = false <-> (b <= a)%Q.
Proof.
  unfold Qltb. rewrite negb_false_iff. apply Qle_bool_iff.
Qed.

Lemma Qle_bool_false a b : Qle_bool a b = false <-> (b < a)%Q.
Proof.
  split.
  - intro H. apply Qnot_le_lt. intro L. apply Qle_bool_iff in L. congruence.
  - intro H. destruct (Qle_bool a b) eqn:E; [|reflexivity].
    apply Qle_bool_iff in E. exfalso. apply (Qlt_not_le _ _ H E).
Qed.

Lemma Qltb_spec a b : BoolSpec (a < b)%Q (b <= a)%Q (Qltb a b).
Proof.
  destruct (Qltb a b) eqn:E; constructor; [apply Qltb_lt | apply Qltb_ge]; exact E.
Qed.

(** ** Ranges *)

(** Python's [range(n)] as a list of integers. *)
Definition zrange (n : Z) : list Z := map Z.of_nat (seq 0 (Z.to_nat n)).

Lemma in_zrange n i : In i (zrange n) <-> 0 <= i < n.
Proof.
  unfold zrange. rewrite in_map_iff. split.
  - intros (k & <- & H). apply in_seq in H. lia.
  - intros H. exists (Z.to_nat i). rewrite in_seq. lia.
Qed.

Lemma zrange_NoDup n : NoDup (zrange n).
Proof.
  unfold zrange. apply FinFun.Injective_map_NoDup; [|apply seq_NoDup].
  intros a b H. lia.
Qed.

Lemma zrange_length n : length (zrange n) = Z.to_nat n.
Proof. unfold zrange. now rewrite map_length, seq_length. Qed.

(** ** Arrays as lists *)

Section Arrays.
Context {A : Type}.

(** [a[i] = v] on a list; no effect out of range. *)
Fixpoint upd (l : list A) (i : nat) (v : A) : list A :=
  match l, i with
  | [], _ => []
  | _ :: t, O => v :: t
  | x :: t, S i' => x :: upd t i' v
  end.

Lemma upd_length l : forall i v, length (upd l i v) = length l.
Proof. induction l as [|x t IH]; intros [|i] v; simpl; auto. Qed.

Lemma nth_upd l : forall i j v d,
  nth j (upd l i v) d = if (Nat.eqb i j && Nat.ltb i (length l))%bool then v else nth j l d.
Proof.
  induction l as [|x t IH]; intros i j v d.
  - destruct i, j; simpl; rewrite ?andb_false_r; reflexivity.
  - destruct i as [|i], j as [|j]; simpl; try reflexivity.
    rewrite IH. reflexivity.
Qed.

Lemma nth_upd_same l i v d : (i < length l)%nat -> nth i (upd l i v) d = v.
Proof.
  intro H. rewrite nth_upd, Nat.eqb_refl. apply Nat.ltb_lt in H. now rewrite H.
Qed.

Lemma nth_upd_other l i j v d : i <> j -> nth j (upd l i v) d = nth j l d.
Proof.
  intro H. rewrite nth_upd. apply Nat.eqb_neq in H. now rewrite H.
Qed.

Lemma nth_error_upd l : forall i j v,
  nth_error (upd l i v) j =
  if (Nat.eqb i j && Nat.ltb i (length l))%bool then Some v else nth_error l j.
Proof.
  induction l as [|x t IH]; intros i j v.
  - destruct i, j; simpl; rewrite ?andb_false_r; reflexivity.
  - destruct i as [|i], j as [|j]; simpl; try reflexivity. apply IH.
Qed.

Lemma upd_out l : forall i v, (length l <= i)%nat -> upd l i v = l.
Proof.
  induction l as [|x t IH]; intros [|i] v H; simpl in *; try reflexivity; try lia.
  rewrite IH by lia. reflexivity.
Qed.

(** numpy index normalisation: [i] in [0,n) is itself, [i] in [-n,0) counts from
    the end, anything else is an IndexError ([None]). *)
Definition np_idx (n : nat) (i : Z) : option nat :=
  if (0 <=? i) && (i <? Z.of_nat n) then Some (Z.to_nat i)
  else if (- Z.of_nat n <=? i) && (i <? 0) then Some (Z.to_nat (i + Z.of_nat n))
  else None.

(** [a[i]] with numpy conventions. *)
Definition np_get (l : list A) (i : Z) : option A :=
  match np_idx (length l) i with Some k => nth_error l k | None => None end.

Lemma np_idx_pos n i : 0 <= i < Z.of_nat n -> np_idx n i = Some (Z.to_nat i).
Proof.
  intros H. unfold np_idx.
  replace ((0 <=? i) && (i <? Z.of_nat n)) with true by lia. reflexivity.
Qed.

Lemma nth_error_nth_lt (l : list A) n d : (n < length l)%nat -> nth_error l n = Some (nth n l d).
Proof. intro H. now apply nth_error_nth'. Qed.

Lemma list_ext (l1 l2 : list A) :
  (forall i, nth_error l1 i = nth_error l2 i) -> l1 = l2.
Proof.
  revert l2. induction l1 as [|x t IH]; intros [|y s] H; try reflexivity.
  - specialize (H 0%nat). discriminate.
  - specialize (H 0%nat). discriminate.
  - pose proof (H 0%nat) as H0. simpl in H0. injection H0 as ->.
    f_equal. apply IH. intro i. exact (H (S i)).
Qed.

Lemma list_ext_nth (d : A) (l1 l2 : list A) :
  length l1 = length l2 -> (forall i, (i < length l1)%nat -> nth i l1 d = nth i l2 d) ->
  l1 = l2.
Proof.
  revert l2. induction l1 as [|x t IH]; intros [|y s] HL H; try reflexivity; try discriminate.
  f_equal.
  - exact (H 0%nat (Nat.lt_0_succ _)).
  - apply IH; [now injection HL|]. intros i Hi. apply (H (S i)). simpl. lia.
Qed.
End Arrays.

(** ** Sums of rationals *)

Definition qsum (l : list Q) : Q := fold_right Qplus 0%Q l.

Lemma qsum_cons x l : (qsum (x :: l) == x + qsum l)%Q.
Proof. reflexivity. Qed.

Lemma qsum_app l1 l2 : (qsum (l1 ++ l2) == qsum l1 + qsum l2)%Q.
Proof.
  induction l1 as [|x t IH]; simpl; [ring|]. rewrite IH. ring.
Qed.

Lemma qsum_perm l1 l2 : Permutation l1 l2 -> (qsum l1 == qsum l2)%Q.
Proof.
  induction 1 as [|x l l' _ IH|x y l|l l' l'' _ IH1 _ IH2]; simpl.
  - reflexivity.
  - rewrite IH. reflexivity.
  - ring.
  - etransitivity; eauto.
Qed.

Lemma qsum_map_ext {A} (f g : A -> Q) l :
  (forall x, In x l -> (f x == g x)%Q) -> (qsum (map f l) == qsum (map g l))%Q.
Proof.
  induction l as [|x t IH]; intros H; simpl; [reflexivity|].
  rewrite (H x (or_introl eq_refl)), IH; [reflexivity|].
  intros y Hy. apply H. now right.
Qed.

Lemma qsum_map_plus {A} (f g : A -> Q) l :
  (qsum (map (fun x => (f x + g x)%Q) l) == qsum (map f l) + qsum (map g l))%Q.
Proof.
  induction l as [|x t IH]; simpl; [ring|]. rewrite IH. ring.
Qed.

Lemma qsum_map_scale {A} (c : Q) (f : A -> Q) l :
  (qsum (map (fun x => (c * f x)%Q) l) == c * qsum (map f l))%Q.
Proof.
  induction l as [|x t IH]; simpl; [ring|]. rewrite IH. ring.
Qed.

Lemma qsum_map_zero {A} (l : list A) : (qsum (map (fun _ => 0%Q) l) == 0)%Q.
Proof. induction l as [|x t IH]; simpl; [reflexivity|]. rewrite IH. ring. Qed.

Lemma qsum_swap {A B} (f : A -> B -> Q) (la : list A) (lb : list B) :
  (qsum (map (fun a => qsum (map (f a) lb)) la) ==
   qsum (map (fun b => qsum (map (fun a => f a b) la)) lb))%Q.
Proof.
  induction la as [|a t IH]; simpl.
  - symmetry. apply qsum_map_zero.
  - rewrite IH. rewrite <- qsum_map_plus. reflexivity.
Qed.

Lemma qsum_nonneg l : (forall x, In x l -> (0 <= x)%Q) -> (0 <= qsum l)%Q.
Proof.
  induction l as [|x t IH]; intros H; simpl; [apply Qle_refl|].
  assert (0 <= x)%Q by (apply H; now left).
  assert (0 <= qsum t)%Q by (apply IH; intros y Hy; apply H; now right). lra.
Qed.

Lemma qsum_ge_elem l x : (forall x, In x l -> (0 <= x)%Q) -> In x l -> (x <= qsum l)%Q.
Proof.
  induction l as [|y t IH]; intros H Hx; [contradiction|]. simpl.
  assert (0 <= qsum t)%Q by (apply qsum_nonneg; intros z Hz; apply H; now right).
  destruct Hx as [->|Hx]; [lra|].
  assert (x <= qsum t)%Q by (apply IH; auto; intros z Hz; apply H; now right).
  assert (0 <= y)%Q by (apply H; now left). lra.
Qed.

(** Sum of the elements selected by a predicate. *)
Definition qsum_if {A} (f : A -> Q) (p : A -> bool) (l : list A) : Q :=
  qsum (map (fun x => if p x then f x else 0%Q) l).

Lemma qsum_if_split {A} (f : A -> Q) (p : A -> bool) l :
  (qsum_if f p l + qsum_if f (fun x => negb (p x)) l == qsum (map f l))%Q.
Proof.
  unfold qsum_if. rewrite <- qsum_map_plus. apply qsum_map_ext.
  intros x _. destruct (p x); simpl; ring.
Qed.

(** A sum over an index range of indicator values. *)
Lemma qsum_indicator (n : nat) (k : nat) (v : Q) :
  (k < n)%nat ->
  (qsum (map (fun b => if Nat.eqb k b then v else 0%Q) (seq 0 n)) == v)%Q.
Proof.
  intro H.
  assert (G : forall m s, (qsum (map (fun b => if Nat.eqb k b then v else 0%Q) (seq s m))
     == if (Nat.leb s k && Nat.ltb k (s + m))%bool then v else 0)%Q).
  { induction m as [|m IH]; intros s; simpl.
    - destruct (Nat.leb_spec s k), (Nat.ltb_spec k (s + 0)); simpl; try reflexivity; lia.
    - rewrite IH. destruct (Nat.eqb_spec k s).
      + subst. replace (Nat.leb (S s) s) with false by (symmetry; apply Nat.leb_gt; lia).
        rewrite Nat.leb_refl. simpl.
        replace (Nat.ltb s (s + S m)) with true by (symmetry; apply Nat.ltb_lt; lia). ring.
      + destruct (Nat.leb_spec (S s) k), (Nat.leb_spec s k),
          (Nat.ltb_spec k (S s + m)), (Nat.ltb_spec k (s + S m)); simpl; try lia; ring. }
  rewrite G. simpl. destruct (Nat.ltb_spec k n); [reflexivity|lia].
Qed.

(** ** Loops writing only their own cell

    [for i in prange(n): out[i] = f(i)] executed in any order [order] (every
    iteration once, possibly none for the cells skipped) yields the pointwise
    array: the schedule of such a parallel loop is unobservable. *)
Definition par_loop {A} (f : nat -> option A) (order : list nat) (out : list A) : list A :=
  fold_left (fun o i => match f i with Some v => upd o i v | None => o end) order out.

Lemma par_loop_length {A} (f : nat -> option A) order : forall out,
  length (par_loop f order out) = length out.
Proof.
  unfold par_loop. induction order as [|i t IH]; intros out; simpl; [reflexivity|].
  rewrite IH. destruct (f i); [apply upd_length|reflexivity].
Qed.

Lemma par_loop_nth {A} (f : nat -> option A) order d : forall out j,
  (j < length out)%nat ->
  nth j (par_loop f order out) d =
  if existsb (Nat.eqb j) order then match f j with Some v => v | None => nth j out d end
  else nth j out d.
Proof.
  unfold par_loop. induction order as [|i t IH]; intros out j Hj; simpl; [reflexivity|].
  rewrite IH.
  2:{ destruct (f i); [now rewrite upd_length|exact Hj]. }
  destruct (Nat.eqb_spec j i) as [->|Hne]; simpl.
  - destruct (f i) as [v|] eqn:E; simpl.
    + destruct (existsb (Nat.eqb i) t); [reflexivity|]. now apply nth_upd_same.
    + destruct (existsb (Nat.eqb i) t); reflexivity.
  - assert (E0 : forall o, (o = f i) ->
       nth j match o with Some v => upd out i v | None => out end d = nth j out d).
    { intros [v|] _; [apply nth_upd_other; auto|reflexivity]. }
    rewrite (E0 _ eq_refl). reflexivity.
Qed.

Lemma par_loop_schedule {A} (f : nat -> option A) o1 o2 (out : list A) (d : A) :
  (forall i, In i o1 <-> In i o2) -> par_loop f o1 out = par_loop f o2 out.
Proof.
  intros H. apply (list_ext_nth d).
  - now rewrite !par_loop_length.
  - intros j Hj. rewrite par_loop_length in Hj. rewrite !par_loop_nth by exact Hj.
    replace (existsb (Nat.eqb j) o2) with (existsb (Nat.eqb j) o1); [reflexivity|].
    apply eq_true_iff_eq. rewrite !existsb_exists. split; intros (x & Hx & E);
      exists x; split; auto; now apply H.
Qed.
