(** Vocabulary for saddle points: offsets, sets of offsets, their connected parts. *)
From Coq Require Import QArith.
From Verif Require Import Base GridModel.
Local Open Scope Z_scope.
Notation pos := (Z * Z * Z)%type.

(** Offsets of at most [size] along each axis. *)
Definition in_range (size : Z) (s : pos) : Prop := let '(i, j, k) := s in Z.abs i <= size /\ Z.abs j <= size /\ Z.abs k <= size.
(** Two different points that share a face, an edge or a corner. *)
Definition adjacent (s t : pos) : Prop :=
  s <> t /\ let '(i, j, k) := s in let '(i', j', k') := t in Z.abs (i - i') <= 1 /\ Z.abs (j - j') <= 1 /\ Z.abs (k - k') <= 1.

(** Joined by a path of adjacent points of the set. *)
Inductive linked (M : pos -> Prop) : pos -> pos -> Prop :=
| linked_here s : M s -> linked M s s
| linked_step s t u : linked M s t -> adjacent t u -> M u -> linked M s u.

(** The set falls into [n] connected parts. *)
Definition parts (M : pos -> Prop) (n : nat) : Prop :=
  exists reps, NoDup reps /\ length reps = n /\ (forall r, In r reps -> M r) /\
    (forall s, M s -> exists r, In r reps /\ linked M s r) /\
    (forall r r', In r reps -> In r' reps -> linked M r r' -> r = r').

(** The voxel at an offset of a periodic grid. *)
Definition vox (nx ny nz : Z) (p s : pos) : pos :=
  let '(i, j, k) := p in let '(a, b, c) := s in ((i + a) mod nx, (j + b) mod ny, (k + c) mod nz).
Definition rd {A} (a : arr3 A) (p : pos) : A := let '(i, j, k) := p in a i j k.
(** Joined by a path of neighbouring voxels of the set, across cell boundaries. *)
Inductive joined (nx ny nz : Z) (M : pos -> Prop) : pos -> pos -> Prop :=
| joined_here v : M v -> joined nx ny nz M v v
| joined_step v w o : joined nx ny nz M v w -> in_range 1 o -> M (vox nx ny nz w o) -> joined nx ny nz M v (vox nx ny nz w o).

(** A voxel beyond a value: above it if [greater], below it otherwise. *)
Definition past (greater : bool) (value x : Q) : Prop := if greater then (value < x)%Q else (x < value)%Q.

Lemma adjacent_sym s t : adjacent s t -> adjacent t s.
Proof. destruct s as [[i j] k], t as [[i' j'] k']. unfold adjacent. intros (N & A & B & C). split; [congruence|lia]. Qed.
Lemma linked_in M s t : linked M s t -> M s /\ M t.
Proof. induction 1 as [s H|s t u L [IH _] A H]; auto. Qed.
Lemma linked_trans M s t u : linked M s t -> linked M t u -> linked M s u.
Proof. intros L1 L2. induction L2 as [t H|t u w L IH A H]; [exact L1|]. apply linked_step with u; auto. Qed.
Lemma linked_sym M s t : linked M s t -> linked M t s.
Proof.
  induction 1 as [s H|s t u L IH A H]; [now constructor|].
  apply linked_trans with t; [|exact IH]. apply linked_step with u; [now constructor|now apply adjacent_sym|]. now apply linked_in in L as [_ L].
Qed.
Lemma linked_mono (M N : pos -> Prop) s t : (forall x, M x -> N x) -> linked M s t -> linked N s t.
Proof. intros H. induction 1 as [s X|s t u L IH A X]; [constructor; auto|]. eapply linked_step; eauto. Qed.
Lemma parts_ext (M N : pos -> Prop) n : (forall x, M x <-> N x) -> parts M n -> parts N n.
Proof.
  intros H (reps & ND & L & I & C & D). exists reps. split; [exact ND|]. split; [exact L|]. split; [intros r R; now apply H, I|]. split.
  - intros s S. apply H in S. destruct (C s S) as (r & R & K). exists r. split; [exact R|]. eapply linked_mono; [|exact K]. intros x. apply H.
  - intros r r' R R' K. apply D; auto. eapply linked_mono; [|exact K]. intros x. apply H.
Qed.

(** The number of parts is determined by the set. *)
Lemma parts_le M n m : parts M n -> parts M m -> (n <= m)%nat.
Proof.
  intros (reps & ND & <- & I & _ & D) (reps' & ND' & <- & I' & C' & D').
  assert (H : exists l, Forall2 (fun r x => In x reps' /\ linked M r x) reps l).
  { clear ND D. induction reps as [|r reps IH]; [exists []; constructor|]. destruct IH as (l & F); [intros x X; apply I; now right|]. destruct (C' r (I r (or_introl eq_refl))) as (x & X & L). exists (x :: l). constructor; auto. }
  destruct H as (l & F). assert (E : length reps = length l) by (clear - F; induction F; cbn; congruence). rewrite E. apply NoDup_incl_length.
  - clear - ND D F I. induction F as [|r x reps l [X L] F IH]; [constructor|]. inversion ND as [|? ? N ND']; subst. constructor.
    + intros K. assert (G : exists r', In r' reps /\ linked M r' x). { clear - F K. induction F as [|a b reps l [A B] F IH]; [destruct K|]. destruct K as [->|K]; [exists a; split; [now left|exact B]|]. destruct (IH K) as (r' & R & S). exists r'. split; [now right|exact S]. }
      destruct G as (r' & R & S). apply N. replace r with r'; [exact R|]. apply D; [now right|now left|]. apply linked_trans with x; [exact S|now apply linked_sym].
    + apply IH; [exact ND'|intros a A; apply I; now right|intros a b A B; apply D; now right].
  - intros x X. clear - F X. induction F as [|a b reps l [A B] F IH]; [destruct X|]. destruct X as [->|X]; [exact A|now apply IH].
Qed.
Lemma parts_unique M n m : parts M n -> parts M m -> n = m.
Proof. intros A B. apply Nat.le_antisymm; eapply parts_le; eassumption. Qed.
