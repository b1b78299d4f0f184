(** Proofs about [DimModel]: independent directions, monotonicity and the search for cutoffs. *)
From Coq Require Import QArith Qabs Lqa.
From Verif Require Import Base GridModel GridProofs RootsModel UnionModel ChargeModel NearModel NearProofs BadelfModel DimModel DimSpec DimProofs.
Local Open Scope Z_scope.

Fixpoint subs {A} (k : nat) (l : list A) : list (list A) :=
  match k, l with
  | O, _ => [[]]
  | S _, [] => []
  | S k', x :: t => map (cons x) (subs k' t) ++ subs k t
  end.

Lemma counted_subs {A} (P : A -> Prop) l n k : counted P l n -> (k <= n)%nat -> exists s, In s (subs k l) /\ forall x, In x s -> P x.
Proof.
  intros C. revert k. induction C as [|x l n Px C IH|x l n Px C IH]; intros k K.
  - replace k with 0%nat by lia. exists []. split; [now left|easy].
  - destruct k as [|k]; [exists []; split; [now left|easy]|]. destruct (IH k) as (s & I & S); [lia|].
    exists (x :: s). split; [cbn; apply in_or_app; left; now apply in_map|]. intros y [<-|Y]; auto.
  - destruct (IH k K) as (s & I & S). exists s. split; [|exact S]. destruct k as [|k]; [now destruct l|]. cbn [subs]. apply in_or_app. now right.
Qed.

Definition zero3 (t : voxel) : bool := let '(a, b, c) := t in (a =? 0) && (b =? 0) && (c =? 0).
Definition par3 (s t : voxel) : bool :=
  let '(a1, a2, a3) := s in let '(b1, b2, b3) := t in (a2 * b3 =? a3 * b2) && (a3 * b1 =? a1 * b3) && (a1 * b2 =? a2 * b1).
Lemma par3_spec s t : par3 s t = false -> ~ parallel s t.
Proof. destruct s as [[a1 a2] a3], t as [[b1 b2] b3]. unfold par3, parallel. lia. Qed.

Definition has1 (s : list (voxel * voxel)) : bool := existsb (fun p => negb (zero3 (dir p))) s.
Definition has2 (s : list (voxel * voxel)) : bool := existsb (fun p => existsb (fun q => negb (par3 (dir p) (dir q))) s) s.
Definition has3 (s : list (voxel * voxel)) : bool := existsb (fun p => existsb (fun q => existsb (fun r => negb (det3 (dir p) (dir q) (dir r) =? 0)) s) s) s.

Lemma all1 : forallb has1 (subs 1 pairs13) = true. Proof. vm_compute. reflexivity. Qed.
Lemma all2 : forallb has2 (subs 2 pairs13) = true. Proof. vm_compute. reflexivity. Qed.
Lemma all5 : forallb has3 (subs 5 pairs13) = true. Proof. vm_compute. reflexivity. Qed.

Lemma counted_spans (Q0 : voxel -> Prop) (P : voxel * voxel -> Prop) n d : (forall p, P p -> Q0 (dir p)) -> counted P pairs13 n -> reads n d -> spans Q0 d.
Proof.
  intros M C R.
  assert (CH : forall k h, (k <= n)%nat -> forallb h (subs k pairs13) = true -> exists s, h s = true /\ forall x, In x s -> Q0 (dir x)).
  { intros k h K H. destruct (counted_subs _ _ _ k C K) as (s & I & S). rewrite forallb_forall in H. exists s. split; [now apply H|]. intros; auto. }
  destruct R as [(-> & ->)|[(-> & ->)|[(N & ->)|(N & ->)]]].
  - exact I.
  - destruct (CH 1%nat has1) as (s & H & S); [lia|apply all1|]. apply existsb_exists in H as (p & I & Z). exists (dir p). split; [auto|].
    destruct (dir p) as [[a b] c]. cbn in Z. intros E. injection E as -> -> ->. discriminate Z.
  - destruct (CH 2%nat has2) as (s & H & S); [lia|apply all2|]. apply existsb_exists in H as (p & I & Z). apply existsb_exists in Z as (q & I' & Z).
    exists (dir p), (dir q). repeat split; auto. apply par3_spec. now destruct (par3 (dir p) (dir q)).
  - destruct (CH 5%nat has3) as (s & H & S); [lia|apply all5|]. apply existsb_exists in H as (p & I & Z). apply existsb_exists in Z as (q & I' & Z). apply existsb_exists in Z as (r & I'' & Z).
    exists (dir p), (dir q), (dir r). repeat split; auto. lia.
Qed.

Section Mono.
Variables nx ny nz : Z.
Hypotheses (HX : 0 < nx) (HY : 0 < ny) (HZ : 0 < nz).
Variable lab : arr3 bool -> arr3 Z.
Hypothesis LAB : lab_ok nx ny nz lab.
Variable feats : list vec.
Hypothesis FB : forall v, feature nx ny nz feats v -> in_box nx ny nz v.

Definition sub_mask (m m' : arr3 bool) : Prop := forall v, in_box nx ny nz v -> rd3 m v = true -> rd3 m' v = true.
Definition no_five (m : arr3 bool) : Prop := forall v, feature nx ny nz feats v -> rd3 m v = true -> ~ links nx ny nz m v 5.

Lemma boxed_mono m m' v : sub_mask m m' -> boxed nx ny nz m v -> boxed nx ny nz m' v.
Proof.
  intros S [B H]. split; [exact B|]. destruct v as [[i j] k]. cbn in H |- *. apply (S (i mod nx, j mod ny, k mod nz)); [|exact H].
  cbn. pose proof (Z.mod_pos_bound i nx HX). pose proof (Z.mod_pos_bound j ny HY). pose proof (Z.mod_pos_bound k nz HZ). auto.
Qed.

Lemma links_mono m m' v n n' : sub_mask m m' -> links nx ny nz m v n -> links nx ny nz m' v n' -> (n <= n')%nat.
Proof. intros S. apply counted_le. intros [a b]. apply joined_mono. intros w. now apply boxed_mono. Qed.

Lemma links_exist m v : feature nx ny nz feats v -> rd3 m v = true -> exists n, links nx ny nz m v n.
Proof. intros F M. destruct (count_spec nx ny nz HX HY HZ m (lab (tile nx ny nz m)) v (FB v F) M (LAB _)) as (ls & _ & K). eauto. Qed.

Lemma mask_dim_mono m m' : sub_mask m m' -> no_five m -> no_five m' ->
  exists d d', mask_dim nx ny nz lab feats m = Done d /\ mask_dim nx ny nz lab feats m' = Done d' /\ (d <= d')%nat.
Proof.
  intros S N N'.
  assert (R5 : forall n, n <> 5%nat -> (n <= 13)%nat -> exists d, reads n d).
  { intros n A B. pose proof (dim_of_count_spec n B) as D. destruct (dim_of_count n) as [d|]; [now exists d|contradiction]. }
  destruct (mask_dim_spec nx ny nz HX HY HZ lab feats m LAB FB) as [[E D]|[(v & V & M) [(d & w & n & D & W & Mw & K & R & U)|[D A]]]].
  - exists 0%nat. destruct (mask_dim_spec nx ny nz HX HY HZ lab feats m' LAB FB) as [[E' D']|[(v & V & M) [(d & w & n & D' & _)|[D' A]]]].
    + exists 0%nat. auto.
    + exists d. repeat split; auto. lia.
    + exfalso. exact (N' v V M (A v V M)).
  - exists d. assert (Mw' : rd3 m' w = true) by (apply S; auto). destruct (mask_dim_spec nx ny nz HX HY HZ lab feats m' LAB FB) as [[E' D']|[(v' & V' & M') [(d' & w' & n' & D' & W' & Mw'' & K' & R' & U')|[D' A]]]].
    + rewrite E' in Mw' by exact W. discriminate.
    + exists d'. repeat split; auto. destruct (links_exist m' w W Mw') as (p & P).
      destruct (R5 p) as (e & Re); [intros ->; now apply (N' w W Mw')|exact (links_le13 nx ny nz m' w p P)|].
      apply Nat.le_trans with e; [|now apply (U' w p)]. apply (reads_le n p); auto. now apply (links_mono m m' w).
    + exfalso. exact (N' v' V' M' (A v' V' M')).
  - exfalso. exact (N v V M (A v V M)).
Qed.
End Mono.

(** ** The search *)
Local Open Scope Q_scope.
Fixpoint halves (w : Q) (l : list Q) : Prop := match l with [] => True | i :: t => i == w * (1 # 2) /\ halves i t end.
Fixpoint final (w : Q) (l : list Q) : Q := match l with [] => w | i :: t => final i t end.

Lemma amounts_halves : halves (1 # 2) amounts.
Proof. vm_compute. repeat split; reflexivity. Qed.
Lemma amounts_final : final (1 # 2) amounts == 1 # 65536.
Proof. vm_compute. reflexivity. Qed.

Section Search.
Variable dim : Q -> outcome nat.
Variable f : Q -> nat.
Hypothesis TOT : forall x, 0 <= x <= 1 -> dim x = Done (f x).

(** The cutoffs looked at by a run, with the state of the flag. *)
Lemma narrow_spec d steps : forall w g found, halves w steps -> 0 < w -> w <= g <= 1 - w ->
  exists g' found', narrow dim d steps g found = Done (g', found') /\ 0 <= g' <= 1 /\
    (found' = true -> found = true \/ exists x, 0 <= x <= 1 /\ f x = d) /\ (found = true -> found' = true) /\
    (forall c, threshold f d c -> g - w <= c <= g + w -> g' - final w steps <= c <= g' + final w steps) /\
    (forall c, threshold f d c -> g - w <= c <= g + w ->
       (g + w == 1 \/ found = true \/ exists x, 0 <= x <= 1 /\ x == g + w /\ (f x < d)%nat) ->
       g' + final w steps == 1 \/ found' = true \/ exists x, 0 <= x <= 1 /\ x == g' + final w steps /\ (f x < d)%nat).
Proof.
  induction steps as [|i t IH]; intros w g found H W G.
  { cbn. exists g, found. repeat split; auto; try lra. }
  cbn [halves] in H. destruct H as [Hi Ht]. cbn [narrow final]. rewrite TOT by lra. cbn [obind].
  assert (I0 : 0 < i) by (rewrite Hi; lra). assert (W2 : w == 2 * i) by (rewrite Hi; ring).
  destruct (Nat.ltb_spec d (f g)) as [A|A]; [|destruct (Nat.ltb_spec (f g) d) as [B|B]].
  - destruct (IH i (g + i) found Ht I0) as (g' & fo & N & R & F1 & F2 & T1 & T2); [lra|]. exists g', fo. split; [exact N|]. split; [exact R|]. split; [exact F1|]. split; [exact F2|].
    assert (C : forall c, threshold f d c -> g <= c). { intros c (C0 & _ & C2). destruct (Qlt_le_dec c g) as [L|L]; [|exact L]. exfalso. specialize (C2 g). assert ((f g <= d)%nat) by (apply C2; lra). lia. }
    split.
    + intros c Tc Bc. apply T1; [exact Tc|]. specialize (C c Tc). lra.
    + intros c Tc Bc V. apply (T2 c); [exact Tc|specialize (C c Tc); lra|]. destruct V as [V|[V|(x & X & E & L)]]; [left; lra|right; left; exact V|right; right; exists x; repeat split; auto; lra].
  - destruct (IH i (g - i) found Ht I0) as (g' & fo & N & R & F1 & F2 & T1 & T2); [lra|]. exists g', fo. split; [exact N|]. split; [exact R|]. split; [exact F1|]. split; [exact F2|].
    assert (C : forall c, threshold f d c -> c <= g). { intros c (C0 & C1 & _). destruct (Qlt_le_dec g c) as [L|L]; [|exact L]. exfalso. assert ((d < f g)%nat) by (apply C1; lra). lia. }
    split.
    + intros c Tc Bc. apply T1; [exact Tc|]. specialize (C c Tc). lra.
    + intros c Tc Bc V. apply (T2 c); [exact Tc|specialize (C c Tc); lra|]. right. right. exists g. repeat split; try lra. exact B.
  - destruct (IH i (g - i) true Ht I0) as (g' & fo & N & R & F1 & F2 & T1 & T2); [lra|]. exists g', fo. split; [exact N|]. split; [exact R|].
    split; [intros _; right; exists g; split; [lra|lia]|]. split; [intros _; now apply F2|].
    assert (C : forall c, threshold f d c -> c <= g). { intros c (C0 & C1 & _). destruct (Qlt_le_dec g c) as [L|L]; [|exact L]. exfalso. assert ((d < f g)%nat) by (apply C1; lra). lia. }
    split.
    + intros c Tc Bc. apply T1; [exact Tc|]. specialize (C c Tc). lra.
    + intros c Tc Bc V. right. left. now apply F2.
Qed.

Lemma round4_near x : Qabs (round4 x - x) <= 1 # 20000.
Proof.
  unfold round4. pose proof (py_round_spec (x * inject_Z (10 ^ 4))) as [[A B] _]. change (inject_Z (10 ^ 4)) with (10000 # 1) in *.
  set (r := inject_Z (py_round (x * (10000 # 1)))) in *. apply Qabs_Qle_condition.
  assert (E : r / (10000 # 1) == r * (1 # 10000)) by field. rewrite E. split; lra.
Qed.

Definition eps : Q := (1 # 65536) + (1 # 20000).

Lemma one_dim d : exists g found, narrow dim d amounts (1 # 2) false = Done (g, found) /\
  (found = true -> exists x, 0 <= x <= 1 /\ f x = d) /\
  (forall c, threshold f d c -> Qabs (round4 g - c) <= eps) /\
  (forall c, threshold f d c -> c + (1 # 32768) < 1 -> (forall x, 0 <= x <= c + (1 # 32768) -> (d <= f x)%nat) -> found = true).
Proof.
  destruct (narrow_spec d amounts (1 # 2) (1 # 2) false amounts_halves) as (g & found & N & R & F1 & _ & T1 & T2); [lra|lra|].
  exists g, found. split; [exact N|]. split; [intros F; destruct (F1 F) as [|X]; [discriminate|exact X]|].
  pose proof amounts_final as AF. split.
  - intros c Tc. assert (B : (1 # 2) - (1 # 2) <= c <= (1 # 2) + (1 # 2)) by (destruct Tc as (C0 & _); lra). specialize (T1 c Tc B). rewrite AF in T1.
    pose proof (round4_near g) as RN. apply Qabs_Qle_condition in RN. apply Qabs_Qle_condition. unfold eps. lra.
  - intros c Tc L D. assert (B : (1 # 2) - (1 # 2) <= c <= (1 # 2) + (1 # 2)) by (destruct Tc as (C0 & _); lra). specialize (T1 c Tc B). rewrite AF in T1.
    destruct (T2 c Tc B) as [V|[V|(x & X & E & V)]]; [left; lra|exfalso; lra|exact V|]. exfalso.
    assert ((d <= f x)%nat) by (apply D; lra). lia.
Qed.

Lemma search_spec ds : exists r, search_dims dim ds = Done r /\
  (forall d q, In (d, q) r -> In d ds /\ (exists x, 0 <= x <= 1 /\ f x = d) /\ forall c, threshold f d c -> Qabs (q - c) <= eps) /\
  (forall d c, In d ds -> threshold f d c -> c + (1 # 32768) < 1 -> (forall x, 0 <= x <= c + (1 # 32768) -> (d <= f x)%nat) -> exists q, In (d, q) r) /\
  (forall P : nat -> nat -> Prop, StronglySorted P ds -> StronglySorted P (map fst r)).
Proof.
  induction ds as [|d ds (r & E & A & B & C)].
  { exists []. repeat split; try easy. }
  destruct (one_dim d) as (g & found & N & F & T & G). cbn [search_dims]. rewrite N. cbn [obind]. rewrite E. cbn [obind]. eexists. split; [reflexivity|]. split; [|split].
  - intros d' q I. destruct found.
    + destruct I as [I|I]; [injection I as <- <-; split; [now left|auto]|]. destruct (A d' q I) as (A1 & A2). split; [now right|exact A2].
    + destruct (A d' q I) as (A1 & A2). split; [now right|exact A2].
  - intros d' c [<-|I] Tc L D.
    + rewrite (G c Tc L D). eexists. now left.
    + destruct (B d' c I Tc L D) as (q & Q). exists q. destruct found; [now right|exact Q].
  - intros P S. inversion S as [|? ? S1 S2]; subst. specialize (C P S1). destruct found; [|exact C]. cbn [map fst]. constructor; [exact C|].
    rewrite Forall_forall in S2 |- *. intros y Y. apply in_map_iff in Y as ([y' q] & <- & Y). apply S2. now destruct (A y' q Y).
Qed.
End Search.
