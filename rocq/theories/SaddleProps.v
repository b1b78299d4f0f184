(** Properties of the search for saddle points. *)
From Coq Require Import QArith.
From Verif Require Import Base GridModel GridProofs NearProofs NeighModel RootsModel UnionModel SaddleModel SaddleSpec SaddleBox SaddleProofs SaddleTop SaddleFind.
Local Open Scope Z_scope.

(** C156: the list of offsets holds every offset of the box once, and the list of connections every pair of
    adjacent offsets exactly once, the earlier first. *)
Theorem C156_offsets size : 0 <= size -> let shifts := fst (get_connections_in_box size) in
  NoDup shifts /\ Z.of_nat (length shifts) = (2 * size + 1) ^ 3 /\ forall s, In s shifts <-> in_range size s.
Proof.
  intros P shifts. cbn [get_connections_in_box fst] in shifts. unfold shifts. split; [apply box_nodup|]. split; [|intros s; now apply in_box]. rewrite box_length by exact P. apply Z2Nat.id, Z.pow_nonneg. lia.
Qed.
Theorem C156_connections size : 0 <= size -> let '(shifts, conns) := get_connections_in_box size in
  NoDup conns /\ forall a b, In (a, b) conns <-> 0 <= a < b /\ exists s t, nth_error shifts (Z.to_nat a) = Some s /\ nth_error shifts (Z.to_nat b) = Some t /\ adjacent s t.
Proof.
  intros P. assert (ND := connections_nodup size P). assert (IC := fun a b => in_connections size a b P). cbn [get_connections_in_box snd] in *. split; [exact ND|]. intros a b. rewrite IC.
  assert (AT : forall n s, nth_error (box size) n = Some s <-> (n < length (box size))%nat /\ at_idx size n = s).
  { intros n s. split.
    - intros H. split; [apply nth_error_Some; congruence|unfold at_idx; now apply nth_error_nth].
    - intros [L <-]. now apply nth_error_nth'. }
  split.
  - intros (s & t & S & T & AD & -> & -> & L). pose proof (idx_range size s P S) as IS. pose proof (idx_range size t P T) as IT. split; [lia|]. exists s, t. assert (LS := ix_lt size s P S). assert (LT := ix_lt size t P T). unfold ix in LS, LT. split; [|split; [|exact AD]]; apply AT; split; auto; now apply at_idx_of.
  - intros (B & s & t & S & T & AD). apply AT in S as [LS <-]. apply AT in T as [LT <-]. exists (at_idx size (Z.to_nat a)), (at_idx size (Z.to_nat b)). split; [now apply at_idx_range|]. split; [now apply at_idx_range|]. split; [exact AD|].
    pose proof (idx_at size _ P LS). pose proof (idx_at size _ P LT). pose proof (idx_range size _ P (at_idx_range size _ P LS)). pose proof (idx_range size _ P (at_idx_range size _ P LT)). lia.
Qed.
Theorem C156_shift_index : (forall c, in_range 2 c -> 0 <= shift_to_index c < 125 /\ index_to_shift (shift_to_index c) = c) /\
  (forall i, 0 <= i < 125 -> in_range 2 (index_to_shift i) /\ shift_to_index (index_to_shift i) = i).
Proof.
  split.
  - intros [[x y] z] R. unfold in_range in R. unfold shift_to_index. split; [lia|]. unfold index_to_shift. set (i := (x + 2) * 25 + (y + 2) * 5 + (z + 2)).
    assert (E1 : i / 25 = x + 2) by (symmetry; apply (Z.div_unique i 25 (x + 2) ((y + 2) * 5 + (z + 2))); unfold i; lia). assert (E2 : i mod 25 = (y + 2) * 5 + (z + 2)) by (symmetry; apply (Z.mod_unique i 25 (x + 2)); unfold i; lia).
    assert (E3 : i mod 25 / 5 = y + 2) by (rewrite E2; symmetry; apply (Z.div_unique _ 5 (y + 2) (z + 2)); lia). assert (E4 : i mod 5 = z + 2) by (symmetry; apply (Z.mod_unique i 5 ((x + 2) * 5 + (y + 2))); unfold i; lia). rewrite E1, E3, E4. f_equal; [f_equal|]; lia.
  - intros i I. unfold index_to_shift, shift_to_index, in_range. pose proof (Z.div_mod i 25 ltac:(lia)). pose proof (Z.mod_pos_bound i 25 ltac:(lia)). pose proof (Z.div_mod (i mod 25) 5 ltac:(lia)). pose proof (Z.mod_pos_bound (i mod 25) 5 ltac:(lia)). assert (E : i mod 5 = (i mod 25) mod 5) by (apply Znumtheory.Zmod_div_mod; [lia|lia|exists 5; reflexivity]). rewrite E. split; [|lia]. lia.
Qed.

(** C157: around a voxel of a grid with at least two voxels per axis, the large test compares the number of groups
    of voxels beyond its value with the number of groups of voxels beyond or at it (single voxels at the value not
    counted). *)
Theorem C157_large nx ny nz data vac greater fuel p value : 2 <= nx -> 2 <= ny -> 2 <= nz -> in_grid nx ny nz p -> (125 <= fuel)%nat ->
  exists n m, parts (open_part nx ny nz data vac greater p value 2) n /\ parts (grouped nx ny nz data vac greater p value 2) m /\
    check_if_saddle nx ny nz data vac greater fuel p value (fst (get_connections_in_box 2)) (snd (get_connections_in_box 2)) = Done (negb (Nat.eqb n m)).
Proof. intros X Y Z0. apply saddle_spec. auto. Qed.
(** The small test, by the values and the vacuum next to the point. *)
Theorem C157_small nx ny nz data vac greater fuel p : 2 <= nx -> 2 <= ny -> 2 <= nz -> in_grid nx ny nz p -> (27 <= fuel)%nat ->
  let value := rd data p in let test := check_if_possible_saddle nx ny nz data vac greater fuel p value (fst (get_connections_in_box 1)) (snd (get_connections_in_box 1)) in
  let near s := in_range 1 s /\ s <> (0, 0, 0) in
  ((forall s, near s -> rd vac (vox nx ny nz p s) = false) -> (exists s, near s /\ (rd data (vox nx ny nz p s) == value)%Q) -> test = Done true) /\
  ((exists s, near s /\ rd vac (vox nx ny nz p s) = true) -> (forall s, near s -> ~ (rd data (vox nx ny nz p s) == value)%Q) -> test = Done false) /\
  ((forall s, near s -> rd vac (vox nx ny nz p s) = false) -> (forall s, near s -> ~ (rd data (vox nx ny nz p s) == value)%Q) -> rd vac p = false ->
   exists n, parts (open_part nx ny nz data vac greater p value 1) n /\ test = Done (Nat.ltb 1 n)).
Proof. intros X Y Z0. apply possible_spec. auto. Qed.
(** The number of groups is a function of the set. *)
Theorem C157_unique M n m : parts M n -> parts M m -> n = m.
Proof. apply parts_unique. Qed.
Lemma possible_total nx ny nz data vac greater fuel p value : (27 <= fuel)%nat ->
  exists b, check_if_possible_saddle nx ny nz data vac greater fuel p value (fst (get_connections_in_box 1)) (snd (get_connections_in_box 1)) = Done b.
Proof.
  intros F. unfold check_if_possible_saddle. cbn [get_connections_in_box fst snd]. assert (LEN : forall l idx mask m b, mark3 nx ny nz data vac greater p value idx l mask = inr (m, b) -> length m = length mask).
  { induction l as [|s l IH]; intros idx mask m b E; cbn [mark3] in E; [now injection E as <- <-|]. destruct (Nat.eqb idx 13); [eauto|]. destruct (at_shift nx ny nz vac p s); [discriminate|]. destruct (beyond _ _ _); [apply IH in E; now rewrite upd_length in E|]. destruct (Qeq_bool _ _); [now injection E as <- <-|eauto]. }
  destruct (mark3 nx ny nz data vac greater p value 0 (box 1) (repeat false 27)) as [r|[m b]] eqn:E; [eauto|]. destruct b; [|eauto]. apply LEN in E. rewrite repeat_length in E.
  destruct (stage_one 1 fuel m ltac:(lia) E ltac:(lia)) as (q & r & E1 & _). rewrite E in E1. unfold UnionProofs.identity in E1. cbn [get_connections_in_box snd] in E1. rewrite E1. cbn [obind]. eauto.
Qed.
(** Every voxel gets an answer; marked voxels are edge voxels outside the vacuum at which the number of groups changes. *)
Theorem C157_marked nx ny nz data vac greater fuel edge p : 2 <= nx -> 2 <= ny -> 2 <= nz -> in_grid nx ny nz p -> (125 <= fuel)%nat ->
  exists b, saddle_at nx ny nz data vac greater fuel edge p = Done b /\
    (b = true -> rd edge p = true /\ rd vac p = false /\ exists n m, parts (open_part nx ny nz data vac greater p (rd data p) 2) n /\ parts (grouped nx ny nz data vac greater p (rd data p) 2) m /\ n <> m).
Proof.
  intros X Y Z0 I F. destruct (C157_large nx ny nz data vac greater fuel p (rd data p) X Y Z0 I F) as (n & m & PN & PM & E). destruct (possible_total nx ny nz data vac greater fuel p (rd data p) ltac:(lia)) as (b0 & E0).
  destruct p as [[i j] k]. unfold saddle_at. cbn [rd] in *. destruct (edge i j k); [|exists false; split; [reflexivity|discriminate]]. destruct (vac i j k); [exists false; split; [reflexivity|discriminate]|]. cbn [negb orb].
  cbn [get_connections_in_box fst snd] in *. rewrite E0. cbn [obind]. destruct b0; [|exists false; split; [reflexivity|discriminate]]. exists (negb (Nat.eqb n m)). split; [exact E|]. intros B. do 2 (split; [reflexivity|]). exists n, m. do 2 (split; [assumption|]). intros ->. rewrite Nat.eqb_refl in B. discriminate.
Qed.

(** C158: a voxel that joins two groups of voxels beyond its value is marked, if it is an edge voxel, no neighbour
    is in the vacuum, and near it every group of voxels at its value touches one beyond it. *)
Theorem C158_found nx ny nz data vac greater fuel edge p a b : 2 <= nx -> 2 <= ny -> 2 <= nz -> in_grid nx ny nz p -> (125 <= fuel)%nat ->
  rd edge p = true -> (forall s, in_range 1 s -> rd vac (vox nx ny nz p s) = false) ->
  in_range 1 a -> in_range 1 b -> past greater (rd data p) (rd data (vox nx ny nz p a)) -> past greater (rd data p) (rd data (vox nx ny nz p b)) ->
  ~ joined nx ny nz (fun w => rd vac w = false /\ past greater (rd data p) (rd data w)) (vox nx ny nz p a) (vox nx ny nz p b) ->
  (forall t, closed_part nx ny nz data vac greater p (rd data p) 2 t -> (exists t', adjacent t t' /\ closed_part nx ny nz data vac greater p (rd data p) 2 t') ->
    exists u, open_part nx ny nz data vac greater p (rd data p) 2 u /\ linked (closed_part nx ny nz data vac greater p (rd data p) 2) t u) ->
  saddle_at nx ny nz data vac greater fuel edge p = Done true.
Proof.
  intros X Y Z0 I F E V A B PA PB NJ TIE. set (v := rd data p) in *. set (O := open_part nx ny nz data vac greater p v 2) in *. set (K := closed_part nx ny nz data vac greater p v 2) in *. set (G := grouped nx ny nz data vac greater p v 2).
  destruct (C157_large nx ny nz data vac greater fuel p v X Y Z0 I F) as (n & m & PN & PM & EL). fold O in PN. fold G in PM.
  assert (PS : vox nx ny nz p (0, 0, 0) = p). { destruct p as [[i j] k]. unfold in_grid in I. unfold vox. rewrite !Z.add_0_r, !Z.mod_small by lia. reflexivity. }
  assert (Z1 : in_range 1 (0, 0, 0)) by (unfold in_range; lia). assert (VP : rd vac p = false) by (rewrite <- PS; now apply V).
  assert (R2 : forall s, in_range 1 s -> in_range 2 s) by (intros s; apply range_mono; lia).
  assert (OA : O a) by (split; [now apply R2|]; split; [now apply V|exact PA]). assert (OB : O b) by (split; [now apply R2|]; split; [now apply V|exact PB]).
  assert (KZ : K (0, 0, 0)) by (split; [now apply R2|]; rewrite PS; split; [exact VP|right; unfold v; reflexivity]).
  assert (NZ : forall s, past greater v (rd data (vox nx ny nz p s)) -> s <> (0, 0, 0)). { intros s H ->. rewrite PS in H. apply past_neq in H. apply H. unfold v. reflexivity. }
  assert (ADJ : forall s, in_range 1 s -> s <> (0, 0, 0) -> adjacent s (0, 0, 0)). { intros s R N. split; [exact N|]. destruct s as [[x y] z]. unfold in_range in R. lia. }
  assert (OK : forall s, O s -> K s) by (intros s (S1 & S2 & S3); split; [exact S1|]; split; [exact S2|now left]).
  assert (OG : forall s, O s -> G s) by (intros s S; split; [now apply OK|now left]).
  assert (KG : forall s t, linked K s t -> s <> t -> linked G s t).
  { intros s t L. induction L as [s S|s t u L IH AD U]; [congruence|]. intros N. assert (KT : K t) by (now apply linked_in in L). assert (GU : G u) by (split; [exact U|right; exists t; split; [now apply adjacent_sym|exact KT]]).
    assert (GT : G t) by (split; [exact KT|right; exists u; split; [exact AD|exact U]]).
    assert (D : {s = t} + {s <> t}) by (repeat decide equality). destruct D as [->|D]; [apply linked_step with t; [now constructor|exact AD|exact GU]|]. apply linked_step with t; [now apply IH|exact AD|exact GU]. }
  assert (LAB : linked G a b).
  { assert (GZ : G (0, 0, 0)) by (split; [exact KZ|right; exists a; split; [apply adjacent_sym; now apply ADJ, NZ|now apply OK]]). apply linked_step with (0, 0, 0); [apply linked_step with a; [constructor; now apply OG|apply ADJ; [exact A|now apply NZ]|exact GZ]|apply adjacent_sym, ADJ; [exact B|now apply NZ]|now apply OG]. }
  assert (NLO : ~ linked O a b) by (intros L; apply NJ; now apply (linked_joined nx ny nz data vac greater p v 2)).
  assert (LT : (m < n)%nat).
  { apply (merge_count O G n m a b); auto. intros s GS. destruct GS as [KS [OS|(t & AD & KT)]]; [exists s; split; [exact OS|constructor; now apply OG]|]. destruct (TIE s KS (ex_intro _ t (conj AD KT))) as (u & OU & L). exists u. split; [exact OU|].
    assert (D : {s = u} + {s <> u}) by (repeat decide equality). destruct D as [->|D]; [constructor; now apply OG|now apply KG]. }
  (* the small test *)
  assert (PT : check_if_possible_saddle nx ny nz data vac greater fuel p v (fst (get_connections_in_box 1)) (snd (get_connections_in_box 1)) = Done true).
  { destruct (C157_small nx ny nz data vac greater fuel p X Y Z0 I ltac:(lia)) as (T1 & _ & T3). fold v in T1, T3.
    assert (DEC : (exists s, (in_range 1 s /\ s <> (0, 0, 0)) /\ (rd data (vox nx ny nz p s) == v)%Q) \/ (forall s, in_range 1 s /\ s <> (0, 0, 0) -> ~ (rd data (vox nx ny nz p s) == v)%Q)).
    { destruct (existsb (fun s => negb (let '(x, y, z) := s in (x =? 0) && (y =? 0) && (z =? 0)) && Qeq_bool (rd data (vox nx ny nz p s)) v) (box 1)) eqn:EX.
      - left. apply existsb_exists in EX as (s & S & H). apply andb_true_iff in H as [H1 H2]. apply Qeq_bool_iff in H2. exists s. split; [|exact H2]. apply in_box in S; [|lia]. split; [exact S|]. intros ->. discriminate.
      - right. intros s [S N] Q0. assert (H : existsb (fun s => negb (let '(x, y, z) := s in (x =? 0) && (y =? 0) && (z =? 0)) && Qeq_bool (rd data (vox nx ny nz p s)) v) (box 1) = true); [|congruence]. apply existsb_exists. exists s. split; [apply in_box; [lia|exact S]|]. apply andb_true_iff. split; [|now apply Qeq_bool_iff]. destruct s as [[x y] z]. destruct (Z.eqb_spec x 0), (Z.eqb_spec y 0), (Z.eqb_spec z 0); try reflexivity. subst. congruence. }
    destruct DEC as [D|D]; [apply T1; [intros s [S _]; now apply V|exact D]|]. destruct T3 as (n3 & P3 & ->); [intros s [S _]; now apply V|exact D|exact VP|]. f_equal. apply Nat.ltb_lt. destruct P3 as (reps & ND & <- & RI & RC & RD).
    assert (O1A : open_part nx ny nz data vac greater p v 1 a) by (split; [exact A|]; split; [now apply V|exact PA]). assert (O1B : open_part nx ny nz data vac greater p v 1 b) by (split; [exact B|]; split; [now apply V|exact PB]).
    destruct (RC a O1A) as (ra & RA & LA). destruct (RC b O1B) as (rb & RB & LB). assert (NE : ra <> rb). { intros ->. apply NJ. apply (linked_joined nx ny nz data vac greater p v 1 a b I). apply linked_trans with rb; [exact LA|now apply linked_sym]. }
    destruct reps as [|x [|y reps]]; cbn [length]; [destruct RA| |lia]. destruct RA as [RA|[]], RB as [RB|[]]. congruence. }
  destruct p as [[i j] k]. unfold saddle_at. cbn [rd] in E, VP. rewrite E, VP. cbn [negb orb]. cbn [get_connections_in_box fst snd] in *. change (data i j k) with v. rewrite PT. cbn [obind]. rewrite EL. f_equal. apply negb_true_iff, Nat.eqb_neq. lia.
Qed.
(** In particular if no other voxel near it has its value. *)
Theorem C158_alone nx ny nz data vac greater fuel edge p a b : 2 <= nx -> 2 <= ny -> 2 <= nz -> in_grid nx ny nz p -> (125 <= fuel)%nat ->
  rd edge p = true -> (forall s, in_range 1 s -> rd vac (vox nx ny nz p s) = false) ->
  in_range 1 a -> in_range 1 b -> past greater (rd data p) (rd data (vox nx ny nz p a)) -> past greater (rd data p) (rd data (vox nx ny nz p b)) ->
  ~ joined nx ny nz (fun w => rd vac w = false /\ past greater (rd data p) (rd data w)) (vox nx ny nz p a) (vox nx ny nz p b) ->
  (forall t, in_range 2 t -> t <> (0, 0, 0) -> ~ (rd data (vox nx ny nz p t) == rd data p)%Q) ->
  saddle_at nx ny nz data vac greater fuel edge p = Done true.
Proof.
  intros X Y Z0 I F E V A B PA PB NJ TIE. apply (C158_found nx ny nz data vac greater fuel edge p a b); auto. intros t (T1 & T2 & T3) _. destruct T3 as [T3|T3].
  - exists t. split; [split; [exact T1|]; split; [exact T2|exact T3]|]. constructor. split; [exact T1|]. split; [exact T2|now left].
  - assert (D : {t = (0, 0, 0)} + {t <> (0, 0, 0)}) by (repeat decide equality). destruct D as [->|D]; [|exfalso; now apply (TIE t)].
    assert (NA : a <> (0, 0, 0)). { intros ->. apply past_neq in PA. apply PA. assert (PS : vox nx ny nz p (0, 0, 0) = p) by (destruct p as [[i j] k]; unfold in_grid in I; unfold vox; rewrite !Z.add_0_r, !Z.mod_small by lia; reflexivity). rewrite PS. reflexivity. }
    assert (R2 : in_range 2 a) by (eapply range_mono; [|exact A]; lia). exists a. split; [split; [exact R2|]; split; [now apply V|exact PA]|]. apply linked_step with (0, 0, 0); [constructor; split; [exact T1|]; split; [exact T2|now right]| |split; [exact R2|]; split; [now apply V|now left]].
    split; [congruence|]. destruct a as [[x y] z]. unfold in_range in A. lia.
Qed.
Print Assumptions C156_offsets.
Print Assumptions C156_connections.
Print Assumptions C156_shift_index.
Print Assumptions C157_large.
Print Assumptions C157_small.
Print Assumptions C157_unique.
Print Assumptions C157_marked.
Print Assumptions C158_found.
Print Assumptions C158_alone.

(** A ridge voxel between two peaks. *)
Definition spots (l : list (pos * Q)) : arr3 Q :=
  fun i j k => match find (fun '((a, b, c), _) => (a =? i) && (b =? j) && (c =? k)) l with Some (_, v) => v | None => 0%Q end.
Definition every : arr3 bool := fun _ _ _ => true.
Definition nowhere : arr3 bool := fun _ _ _ => false.
Definition peaks : list (pos * Q) := [((2, 2, 2), 1%Q); ((1, 2, 2), 2%Q); ((3, 2, 2), 2%Q)].
Definition tied : list (pos * Q) := peaks ++ [((0, 0, 0), 1%Q); ((0, 0, 1), 1%Q)].
Definition rim : list (pos * Q) := ((1, 1, 1), 1%Q) :: peaks.
Definition corner_vac : arr3 bool := fun i j k => (i =? 3) && (j =? 3) && (k =? 3).

Lemma spots_in l w v : (v == 0 -> False)%Q -> (rd (spots l) w == v)%Q -> exists x, In (w, x) l /\ (x == v)%Q.
Proof.
  destruct w as [[i j] k]. cbn [rd]. unfold spots. intros N H. destruct (find _ l) as [[[[a b] c] x]|] eqn:F; [|exfalso; apply N; rewrite <- H; reflexivity].
  apply find_some in F as [F E]. apply andb_true_iff in E as [E E3]. apply andb_true_iff in E as [E1 E2]. apply Z.eqb_eq in E1, E2, E3. subst. eauto.
Qed.
Lemma apart_peaks l : (forall w x, In (w, x) l -> (1 < x)%Q -> w = (1, 2, 2) \/ w = (3, 2, 2)) ->
  ~ joined 5 5 5 (fun w => rd nowhere w = false /\ past true 1 (rd (spots l) w)) (1, 2, 2) (3, 2, 2).
Proof.
  intros L J. assert (K : forall v w, joined 5 5 5 (fun w => rd nowhere w = false /\ past true 1 (rd (spots l) w)) v w -> v = (1, 2, 2) -> w = (1, 2, 2)).
  { clear J. intros v w J E. induction J as [v M|v w o J IH R [_ M]]; [exact E|]. specialize (IH E). subst. cbn [past] in M.
    destruct (spots_in l (vox 5 5 5 (1, 2, 2) o) (rd (spots l) (vox 5 5 5 (1, 2, 2) o))) as (x & X & XE); [intros H; rewrite H in M; discriminate|reflexivity|].
    rewrite <- XE in M. destruct (L _ _ X M) as [H|H]; [exact H|]. destruct o as [[a b] c]. unfold in_range in R. unfold vox in H. apply (f_equal (fun q : pos => fst (fst q))) in H. cbn [fst] in H. rewrite Z.mod_small in H; lia. }
  specialize (K _ _ J eq_refl). discriminate.
Qed.
(** The theorem applies to the voxel between the peaks, and the model marks it. *)
Example ex_found : saddle_at 5 5 5 (spots peaks) nowhere true 125 every (2, 2, 2) = Done true.
Proof.
  apply (C158_alone 5 5 5 (spots peaks) nowhere true 125 every (2, 2, 2) (-1, 0, 0) (1, 0, 0)); try lia; try reflexivity; try (cbn; lia).
  - intros s _. now destruct (vox 5 5 5 (2, 2, 2) s) as [[i j] k].
  - apply apart_peaks. intros w x [H|[H|[H|[]]]] L; injection H as <- <-; [discriminate|now left|now right].
  - intros t R N H. change (rd (spots peaks) (2, 2, 2)) with 1%Q in H. apply spots_in in H as (x & [X|[X|[X|[]]]] & E); [| | |discriminate]; assert (XV := f_equal snd X); cbn [snd] in XV; subst x; [|discriminate|discriminate]. apply (f_equal fst) in X. cbn [fst] in X. symmetry in X. destruct t as [[a b] c]. unfold in_range in R. unfold vox in X. assert (X1 := f_equal (fun q : pos => fst (fst q)) X). assert (X2 := f_equal (fun q : pos => snd (fst q)) X). assert (X3 := f_equal snd X). cbn [fst snd] in X1, X2, X3. clear X. apply N. rewrite Z.mod_small in X1, X2, X3 by lia. f_equal; [f_equal|]; lia.
Qed.
Example ex_marked : saddle_at 5 5 5 (spots peaks) nowhere true 125 every (2, 2, 0) = Done false /\ saddle_at 5 5 5 (spots peaks) nowhere true 125 nowhere (2, 2, 2) = Done false.
Proof. split; vm_compute; reflexivity. Qed.
Example ex_connections : let '(shifts, conns) := get_connections_in_box 1 in length shifts = 27%nat /\ length conns = 158%nat /\ In (0, 13) conns /\ ~ In (13, 0) conns /\ ~ In (0, 2) conns.
Proof. assert (C := C156_connections 1 ltac:(lia)). cbn [get_connections_in_box] in *. destruct C as [_ C]. split; [reflexivity|]. split; [vm_compute; reflexivity|]. split; [vm_compute; auto 20|]. split; [intros H; apply C in H; lia|]. intros H. apply C in H as (_ & s & t & S & T & A). vm_compute in S, T. injection S as <-. injection T as <-. unfold adjacent in A. lia. Qed.

(** C159: pairs of equal voxels near the point, away from both groups, hide the joining of two groups. *)
Theorem C159_ties_refuted : exists nx ny nz data vac greater fuel edge p a b, 2 <= nx /\ 2 <= ny /\ 2 <= nz /\ in_grid nx ny nz p /\ (125 <= fuel)%nat /\
  rd edge p = true /\ (forall w, rd vac w = false) /\ in_range 1 a /\ in_range 1 b /\
  past greater (rd data p) (rd data (vox nx ny nz p a)) /\ past greater (rd data p) (rd data (vox nx ny nz p b)) /\
  ~ joined nx ny nz (fun w => rd vac w = false /\ past greater (rd data p) (rd data w)) (vox nx ny nz p a) (vox nx ny nz p b) /\
  saddle_at nx ny nz data vac greater fuel edge p = Done false.
Proof.
  exists 5, 5, 5, (spots tied), nowhere, true, 125%nat, every, (2, 2, 2), (-1, 0, 0), (1, 0, 0). do 3 (split; [lia|]). split; [cbn; lia|]. split; [lia|]. split; [reflexivity|]. split; [now intros [[i j] k]|]. do 2 (split; [cbn; lia|]). do 2 (split; [reflexivity|]).
  split; [|vm_compute; reflexivity]. apply apart_peaks. intros w x [H|[H|[H|[H|[H|[]]]]]] L; injection H as <- <-; try discriminate; [now left|now right].
Qed.

(** C160: a voxel next to the vacuum can be marked, if a neighbour of equal value comes first in the list of offsets. *)
Theorem C160_vacuum_refuted : exists nx ny nz data vac greater fuel edge p s, 2 <= nx /\ 2 <= ny /\ 2 <= nz /\ in_grid nx ny nz p /\ (125 <= fuel)%nat /\
  in_range 1 s /\ rd vac (vox nx ny nz p s) = true /\ saddle_at nx ny nz data vac greater fuel edge p = Done true.
Proof. exists 5, 5, 5, (spots rim), corner_vac, true, 125%nat, every, (2, 2, 2), (1, 1, 1). do 3 (split; [lia|]). split; [cbn; lia|]. split; [lia|]. split; [cbn; lia|]. split; vm_compute; reflexivity. Qed.
Print Assumptions C159_ties_refuted.
Print Assumptions C160_vacuum_refuted.
(** Without the neighbour of equal value it is not marked. *)
Example ex_no_rim : saddle_at 5 5 5 (spots peaks) corner_vac true 125 every (2, 2, 2) = Done false.
Proof. vm_compute. reflexivity. Qed.
