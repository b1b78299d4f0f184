(** Geometry of the boxes of offsets used to look for saddle points. *)
From Coq Require Import QArith.
From Verif Require Import Base GridModel GridProofs NearProofs NeighModel RootsModel UnionModel VaspTop SaddleModel SaddleSpec.
Local Open Scope Z_scope.

Definition down (size : Z) (s : pos) : pos := let '(i, j, k) := s in (i - size, j - size, k - size).
Lemma map_fm {A B C} (f : B -> C) (g : A -> list B) l : map f (flat_map g l) = flat_map (fun x => map f (g x)) l.
Proof. induction l as [|x l IH]; [reflexivity|]. cbn. now rewrite map_app, IH. Qed.
Lemma fm_map {A B C} (f : A -> B) (g : B -> list C) l : flat_map g (map f l) = flat_map (fun x => g (f x)) l.
Proof. induction l as [|x l IH]; [reflexivity|]. cbn. now rewrite IH. Qed.
Lemma box_down size : box size = map (down size) (voxels (2 * size + 1) (2 * size + 1) (2 * size + 1)).
Proof.
  unfold box, voxels, srange. set (r := zrange (2 * size + 1)). rewrite fm_map, map_fm. apply flat_map_ext. intros i. rewrite fm_map, map_fm. apply flat_map_ext. intros j. rewrite !map_map. reflexivity.
Qed.
Lemma in_box size s : 0 <= size -> In s (box size) <-> in_range size s.
Proof.
  intros P. rewrite box_down, in_map_iff. destruct s as [[i j] k]. unfold in_range. split.
  - intros ([[a b] c] & E & I). apply in_voxels in I. unfold in_grid in I. injection E as <- <- <-. lia.
  - intros H. exists (i + size, j + size, k + size). split; [cbn; f_equal; [f_equal|]; lia|]. apply in_voxels. unfold in_grid. lia.
Qed.
Lemma box_length size : 0 <= size -> length (box size) = Z.to_nat ((2 * size + 1) ^ 3).
Proof. intros P. rewrite box_down, map_length, voxels_len by lia. f_equal. ring. Qed.
Lemma box_nodup size : NoDup (box size).
Proof.
  rewrite box_down. apply FinFun.Injective_map_NoDup; [|apply vox_nodup]. intros [[a b] c] [[a' b'] c'] E. cbn in E. injection E as E1 E2 E3. assert (a = a') by lia. assert (b = b') by lia. assert (c = c') by lia. congruence.
Qed.
(** The index of an offset is its place in the list. *)
Definition at_idx (size : Z) (n : nat) : pos := nth n (box size) (- size, - size, - size).
Lemma idx_range size s : 0 <= size -> in_range size s -> 0 <= trans_to_idx s size < (2 * size + 1) ^ 3.
Proof.
  intros P R. destruct s as [[i j] k]. unfold in_range in R. unfold trans_to_idx. set (r := size * 2 + 1). replace (2 * size + 1) with r by (unfold r; ring). replace (r ^ 2) with (r * r) by ring. replace (r ^ 3) with (r * r * r) by ring.
  assert (0 <= i + size <= r - 1) by (unfold r; lia). assert (0 <= j + size <= r - 1) by (unfold r; lia). assert (0 <= k + size <= r - 1) by (unfold r; lia). clearbody r. assert (1 <= r) by lia. split; [nia|].
  assert ((i + size) * (r * r) <= (r - 1) * (r * r)) by nia. assert ((j + size) * r <= (r - 1) * r) by nia. nia.
Qed.
Lemma at_idx_of size s : 0 <= size -> in_range size s -> at_idx size (Z.to_nat (trans_to_idx s size)) = s.
Proof.
  intros P R. unfold at_idx. rewrite box_down. destruct s as [[i j] k]. unfold in_range in R.
  change (- size, - size, - size) with (down size (0, 0, 0)). rewrite map_nth.
  replace (trans_to_idx (i, j, k) size) with (((i + size) * (2 * size + 1) + (j + size)) * (2 * size + 1) + (k + size)) by (unfold trans_to_idx; ring).
  rewrite voxels_nth by lia. cbn. f_equal; [f_equal|]; lia.
Qed.
Lemma idx_inj size s t : 0 <= size -> in_range size s -> in_range size t -> trans_to_idx s size = trans_to_idx t size -> s = t.
Proof. intros P R T E. rewrite <- (at_idx_of size s P R), <- (at_idx_of size t P T), E. reflexivity. Qed.
Lemma at_idx_range size n : 0 <= size -> (n < length (box size))%nat -> in_range size (at_idx size n).
Proof. intros P L. apply in_box; [exact P|]. unfold at_idx. now apply nth_In. Qed.
Lemma idx_at size n : 0 <= size -> (n < length (box size))%nat -> Z.to_nat (trans_to_idx (at_idx size n) size) = n.
Proof.
  intros P L. assert (R := at_idx_range size n P L). assert (E := at_idx_of size _ P R). unfold at_idx in E at 1.
  unfold at_idx in E. pose proof (box_nodup size) as ND. rewrite NoDup_nth in ND. apply ND; [|exact L|exact E].
  rewrite box_length by exact P. fold (at_idx size n). pose proof (idx_range size _ P R). lia.
Qed.

(** The connections are the pairs of adjacent offsets, each once and in order. *)
Lemma in_connections size a b : 0 <= size -> In (a, b) (snd (get_connections_in_box size)) <->
  exists s t, in_range size s /\ in_range size t /\ adjacent s t /\ a = trans_to_idx s size /\ b = trans_to_idx t size /\ a < b.
Proof.
  intros P. cbn [get_connections_in_box snd]. rewrite in_flat_map. split.
  - intros (s & S & I). apply in_box in S; [|exact P]. destruct s as [[i j] k]. unfold point_connections in I. apply in_flat_map in I as ([[ni nj] nk] & N & I). apply in_box in N; [|lia]. unfold in_range in N.
    destruct ((ni =? 0) && (nj =? 0) && (nk =? 0)) eqn:E0; [destruct I|]. destruct ((size <? Z.abs (i + ni)) || (size <? Z.abs (j + nj)) || (size <? Z.abs (k + nk))) eqn:E1; [destruct I|].
    destruct (trans_to_idx (i + ni, j + nj, k + nk) size <? trans_to_idx (i, j, k) size) eqn:E2; [destruct I|]. destruct I as [I|[]]. assert (EA := f_equal fst I). assert (EB := f_equal snd I). cbn [fst snd] in EA, EB. subst a b. clear I.
    assert (T : in_range size (i + ni, j + nj, k + nk)) by (unfold in_range; lia). assert (D : (i, j, k) <> (i + ni, j + nj, k + nk)) by (intros X; injection X; lia).
    exists (i, j, k), (i + ni, j + nj, k + nk). split; [exact S|]. split; [exact T|]. split; [split; [exact D|lia]|]. split; [reflexivity|]. split; [reflexivity|].
    assert (trans_to_idx (i, j, k) size <> trans_to_idx (i + ni, j + nj, k + nk) size) by (intros X; apply D; now apply (idx_inj size)). lia.
  - intros (s & t & S & T & (D & A) & -> & -> & L). exists s. split; [now apply in_box|]. destruct s as [[i j] k], t as [[i' j'] k']. unfold point_connections. apply in_flat_map. exists (i' - i, j' - j, k' - k). split; [apply in_box; [lia|]; unfold in_range; lia|].
    destruct ((i' - i =? 0) && (j' - j =? 0) && (k' - k =? 0)) eqn:E0; [exfalso; apply D; f_equal; [f_equal|]; lia|].
    replace (i + (i' - i)) with i' by ring. replace (j + (j' - j)) with j' by ring. replace (k + (k' - k)) with k' by ring. unfold in_range in T.
    replace ((size <? Z.abs i') || (size <? Z.abs j') || (size <? Z.abs k')) with false by lia. replace (trans_to_idx (i', j', k') size <? trans_to_idx (i, j, k) size) with false by lia. now left.
Qed.
Lemma nodup_app {A} (l m : list A) : NoDup l -> NoDup m -> (forall x, In x l -> In x m -> False) -> NoDup (l ++ m).
Proof.
  induction l as [|x l IH]; intros L M D; [exact M|]. inversion L as [|? ? N L']; subst. cbn. constructor.
  - intros I. apply in_app_iff in I as [I|I]; [exact (N I)|]. apply (D x); [now left|exact I].
  - apply IH; auto. intros y Y Z. apply (D y); [now right|exact Z].
Qed.
Lemma nodup_flat_map {A B} (f : A -> list B) l : NoDup l -> (forall x, In x l -> NoDup (f x)) -> (forall x y z, In x l -> In y l -> In z (f x) -> In z (f y) -> x = y) -> NoDup (flat_map f l).
Proof.
  induction l as [|x l IH]; intros ND F D; [constructor|]. inversion ND as [|? ? N ND']; subst. cbn [flat_map]. apply nodup_app.
  - apply F. now left.
  - apply IH; [exact ND'|intros y Y; apply F; now right|]. intros y z w Y Z. apply D; now right.
  - intros z Z1 Z2. apply in_flat_map in Z2 as (y & Y & Z2). apply N. replace x with y; [exact Y|]. apply (D y x z); [now right|now left|exact Z2|exact Z1].
Qed.
Lemma connections_nodup size : 0 <= size -> NoDup (snd (get_connections_in_box size)).
Proof.
  intros P. cbn [get_connections_in_box snd].
  assert (FST : forall s x, In x (point_connections size s) -> fst x = trans_to_idx s size).
  { intros [[i j] k] x I. unfold point_connections in I. apply in_flat_map in I as ([[ni nj] nk] & _ & I). destruct ((ni =? 0) && _ && _); [destruct I|]. destruct (_ || _ || _); [destruct I|]. destruct (_ <? _); [destruct I|]. destruct I as [<-|[]]. reflexivity. }
  apply nodup_flat_map; [apply box_nodup| |].
  - intros [[i j] k] S. unfold point_connections. apply nodup_flat_map; [apply box_nodup| |].
    + intros [[ni nj] nk] _. destruct ((ni =? 0) && _ && _); [constructor|]. destruct (_ || _ || _); [constructor|]. destruct (_ <? _); [constructor|]. constructor; [intros []|constructor].
    + intros [[a b] c] [[a' b'] c'] z A B Za Zb. destruct ((a =? 0) && _ && _); [destruct Za|]. destruct ((a' =? 0) && _ && _); [destruct Zb|].
      destruct ((size <? Z.abs (i + a)) || (size <? Z.abs (j + b)) || (size <? Z.abs (k + c))) eqn:E1; [destruct Za|]. destruct ((size <? Z.abs (i + a')) || (size <? Z.abs (j + b')) || (size <? Z.abs (k + c'))) eqn:E2; [destruct Zb|].
      destruct (trans_to_idx (i + a, j + b, k + c) size <? trans_to_idx (i, j, k) size); [destruct Za|]. destruct (trans_to_idx (i + a', j + b', k + c') size <? trans_to_idx (i, j, k) size); [destruct Zb|]. destruct Za as [<-|[]]. destruct Zb as [Zb|[]]. apply (f_equal snd) in Zb. cbn [snd] in Zb. apply (idx_inj size) in Zb; [|exact P|unfold in_range; lia|unfold in_range; lia]. injection Zb as X1 X2 X3. f_equal; [f_equal|]; lia.
  - intros s t z S T Zs Zt. apply FST in Zs. apply FST in Zt. apply in_box in S; [|exact P]. apply in_box in T; [|exact P]. apply (idx_inj size); auto. congruence.
Qed.
