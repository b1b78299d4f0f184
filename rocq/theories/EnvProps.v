(** Properties of the atoms around a point. *)
From Coq Require Import QArith Lqa Lia Permutation Qround.
From Verif Require Import Base ChargeModel CoordProofs ConnProofs EnvModel.
Local Open Scope Z_scope.

(** ** Images *)
Definition vplus (a b : vec) : vec := let '(x, y, z) := a in let '(u, v, w) := b in (x + u, y + v, z + w)%Q.
Definition zvec (s : Z * Z * Z) : vec := let '(a, b, c) := s in (inject_Z a, inject_Z b, inject_Z c).
Definition near_cell (s : Z * Z * Z) : Prop := let '(a, b, c) := s in -1 <= a <= 1 /\ -1 <= b <= 1 /\ -1 <= c <= 1.
Lemma in_shifts s : In s shifts <-> near_cell s.
Proof.
  destruct s as [[a b] c]. unfold near_cell. split.
  - intros I. cbn in I. repeat (destruct I as [I|I]; [injection I as <- <- <-; lia|]). destruct I.
  - intros (A & B & C). unfold shifts. apply in_flat_map. exists a. split; [cbn; lia|]. apply in_flat_map. exists b. split; [cbn; lia|]. apply in_map_iff. exists c. split; [reflexivity|cbn; lia].
Qed.
Lemma moved_vmat m f s : moved m f s = vmat (vplus f (zvec s)) m.
Proof. destruct m as [[[[? ?] ?] [[? ?] ?]] [[? ?] ?]], f as [[? ?] ?], s as [[? ?] ?]. reflexivity. Qed.
Lemma in_order n (order : list nat) j : Permutation order (seq 0 n) -> (j < n)%nat -> existsb (Nat.eqb j) order = true.
Proof. intros P L. apply existsb_exists. exists j. split; [|apply Nat.eqb_refl]. apply (Permutation_in _ (Permutation_sym P)). apply in_seq. lia. Qed.
Lemma fold_min (f : vec -> Q) l : forall b, let r := fold_left (fun best c => if Qle_bool (f c) best then f c else best) l b in
  (r <= b)%Q /\ (forall c, In c l -> (r <= f c)%Q) /\ (r = b \/ exists c, In c l /\ r = f c).
Proof.
  induction l as [|x l IH]; intros b; cbv zeta; cbn [fold_left].
  - split; [apply Qle_refl|]. split; [intros c []|now left].
  - destruct (IH (if Qle_bool (f x) b then f x else b)) as (A & B & C). cbv zeta in A, B, C. set (r := fold_left _ l _) in *. clearbody r. destruct (Qle_bool (f x) b) eqn:E.
    + apply Qle_bool_iff in E. split; [now apply Qle_trans with (f x)|]. split; [intros c [<-|I]; auto|]. destruct C as [-> |(c & I & ->)]; right; [exists x; split; [now left|reflexivity]|exists c; split; [now right|reflexivity]].
    + apply Qle_bool_false in E. split; [exact A|]. split; [intros c [<-|I]; [apply Qle_trans with b; [exact A|now apply Qlt_le_weak]|auto]|]. destruct C as [-> |(c & I & ->)]; [now left|right; exists c; split; [now right|reflexivity]].
Qed.

(** C32: the distance to an atom is the smallest of 1e6 and those of its 27 images. *)
Theorem C32_dists root f carts m order i a : Permutation order (seq 0 (length carts)) -> nth_error carts i = Some a ->
  length (get_dists_to_atoms root f carts m order) = length carts /\
  let d := nth i (get_dists_to_atoms root f carts m order) 0%Q in
  let image s := root (norm2 (vsub a (vmat (vplus f (zvec s)) m))) in
  (d <= 1000000)%Q /\ (forall s, near_cell s -> (d <= image s)%Q) /\ (d = 1000000%Q \/ exists s, near_cell s /\ d = image s).
Proof.
  intros P E. cbv zeta. assert (L : (i < length carts)%nat) by (apply nth_error_Some; congruence). unfold get_dists_to_atoms. split; [now rewrite par_loop_length, repeat_length|]. rewrite par_loop_nth by now rewrite repeat_length. rewrite (in_order _ _ _ P L). unfold atom_dist. rewrite E. cbn [option_map].
  destruct (fold_min (fun c => root (norm2 (vsub a c))) (map (moved m f) shifts) far) as (A & B & C). cbv zeta in A, B, C. set (r := fold_left _ _ _) in *. clearbody r. split; [exact A|]. split.
  - intros s S. rewrite <- moved_vmat. apply B. apply in_map. now apply in_shifts.
  - destruct C as [-> |(c & I & ->)]; [now left|]. apply in_map_iff in I as (s & <- & I). right. exists s. split; [now apply in_shifts|]. now rewrite moved_vmat.
Qed.

(** In a cell with right angles, and with coordinates inside it, it is at most the distance to any image of any atom. *)
Definition inside (f : vec) : Prop := let '(x, y, z) := f in (0 <= x < 1 /\ 0 <= y < 1 /\ 0 <= z < 1)%Q.
Definition right_angles (m : mat) : Prop := let '(a, b, c) := m in (dot a b == 0 /\ dot b c == 0 /\ dot a c == 0)%Q.
Lemma norm2_right (m : mat) u : right_angles m -> let '(x, y, z) := u in let '(a, b, c) := m in (norm2 (vmat u m) == x * x * norm2 a + y * y * norm2 b + z * z * norm2 c)%Q.
Proof.
  destruct u as [[x y] z], m as [[[[m1 m2] m3] [[p1 p2] p3]] [[q1 q2] q3]]. cbn [right_angles dot norm2 vmat]. intros (A & B & C).
  transitivity (x * x * (m1 * m1 + m2 * m2 + m3 * m3) + y * y * (p1 * p1 + p2 * p2 + p3 * p3) + z * z * (q1 * q1 + q2 * q2 + q3 * q3) + 2 * x * y * (m1 * p1 + m2 * p2 + m3 * p3) + 2 * y * z * (p1 * q1 + p2 * q2 + p3 * q3) + 2 * x * z * (m1 * q1 + m2 * q2 + m3 * q3))%Q; [ring|]. rewrite A, B, C. ring.
Qed.
(** The best whole number is -1, 0 or 1. *)
Lemma axis_best x y n : (0 <= x < 1 -> 0 <= y < 1 -> exists s, (-1 <= s <= 1)%Z /\ (y - (x + inject_Z s)) * (y - (x + inject_Z s)) <= (y - (x + inject_Z n)) * (y - (x + inject_Z n)))%Q.
Proof.
  intros [X1 X2] [Y1 Y2]. destruct (Z_le_gt_dec 1 n) as [G|G].
  - exists 1. split; [lia|]. assert (N : (1 <= inject_Z n)%Q) by (change 1%Q with (inject_Z 1); rewrite <- Zle_Qle; exact G). change (inject_Z 1) with 1%Q. set (q := inject_Z n) in *. clearbody q. assert (0 <= (q - 1) * (q + 1 - 2 * (y - x)))%Q by (apply Qmult_le_0_compat; lra). setoid_replace ((y - (x + q)) * (y - (x + q)))%Q with ((y - (x + 1)) * (y - (x + 1)) + (q - 1) * (q + 1 - 2 * (y - x)))%Q by ring. lra.
  - destruct (Z_le_gt_dec n (-1)) as [K|K].
    + exists (-1). split; [lia|]. assert (N : (inject_Z n <= -1)%Q) by (change (-1)%Q with (inject_Z (-1)); rewrite <- Zle_Qle; exact K). change (inject_Z (-1)) with (-1)%Q. set (q := inject_Z n) in *. clearbody q. assert (0 <= (- 1 - q) * (1 - q + 2 * (y - x)))%Q by (apply Qmult_le_0_compat; lra). setoid_replace ((y - (x + q)) * (y - (x + q)))%Q with ((y - (x + -1)) * (y - (x + -1)) + (- 1 - q) * (1 - q + 2 * (y - x)))%Q by ring. lra.
    + exists n. split; [lia|]. apply Qle_refl.
Qed.
Lemma vsub_vmat' m u v : veq (vsub (vmat u m) (vmat v m)) (vmat (vsub u v) m).
Proof. destruct m as [[[[a b] c] [[d e] f]] [[g h] i]], u as [[u1 u2] u3], v as [[w1 w2] w3]. unfold veq, vsub, vmat. repeat split; ring. Qed.
Lemma sq0 q : (0 <= q * q)%Q.
Proof. destruct (Qlt_le_dec q 0); [setoid_replace (q * q)%Q with ((- q) * (- q))%Q by ring; apply Qmult_le_0_compat; lra|now apply Qmult_le_0_compat]. Qed.
Lemma norm2_pos v : (0 <= norm2 v)%Q.
Proof. destruct v as [[x y] z]. cbn. pose proof (sq0 x). pose proof (sq0 y). pose proof (sq0 z). lra. Qed.
Theorem C32_right_angles root f g m carts order i n : (forall x y, x <= y -> root x <= root y)%Q -> Permutation order (seq 0 (length carts)) -> nth_error carts i = Some (vmat g m) ->
  right_angles m -> inside f -> inside g -> (nth i (get_dists_to_atoms root f carts m order) 0 <= root (norm2 (vsub (vmat g m) (vmat (vplus f (zvec n)) m))))%Q.
Proof.
  intros MO P E R F G. destruct (C32_dists root f carts m order i _ P E) as (_ & _ & B & _). destruct f as [[f1 f2] f3], g as [[g1 g2] g3], n as [[n1 n2] n3]. cbn [inside] in F, G. destruct F as (F1 & F2 & F3), G as (G1 & G2 & G3).
  destruct (axis_best f1 g1 n1 F1 G1) as (s1 & S1 & Q1), (axis_best f2 g2 n2 F2 G2) as (s2 & S2 & Q2), (axis_best f3 g3 n3 F3 G3) as (s3 & S3 & Q3). apply Qle_trans with (1 := B (s1, s2, s3) (conj S1 (conj S2 S3))). apply MO.
  rewrite (norm2_comp _ _ (vsub_vmat' m (g1, g2, g3) (vplus (f1, f2, f3) (zvec (s1, s2, s3))))), (norm2_comp _ _ (vsub_vmat' m (g1, g2, g3) (vplus (f1, f2, f3) (zvec (n1, n2, n3))))).
  pose proof (norm2_right m (vsub (g1, g2, g3) (vplus (f1, f2, f3) (zvec (s1, s2, s3)))) R) as A. pose proof (norm2_right m (vsub (g1, g2, g3) (vplus (f1, f2, f3) (zvec (n1, n2, n3)))) R) as A'. destruct m as [[a b] c]. cbn [vsub vplus zvec] in *. rewrite A, A'. repeat apply Qplus_le_compat; (apply Qmult_le_compat_r; [assumption|apply norm2_pos]).
Qed.

(** ** Nearest neighbours *)
(** The other atoms and images: atom [j] moved by [im]. *)
Definition cand := (nat * vec * (Z * Z * Z))%type.
Definition neg3 (s : Z * Z * Z) : Z * Z * Z := let '(a, b, c) := s in (- a, - b, - c).
Definition cands (carts : list vec) : list (Z * Z * Z * (nat * vec)) := flat_map (fun s => map (fun e => (s, e)) (combine (seq 0 (length carts)) carts)) shifts.
Lemma in_enum' {A} (s : list A) r i : In (r, i) (combine (seq 0 (length s)) s) <-> nth_error s r = Some i.
Proof.
  cut (forall b, In (r, i) (combine (seq b (length s)) s) <-> (b <= r)%nat /\ nth_error s (r - b) = Some i).
  { intros H. rewrite H, Nat.sub_0_r. intuition lia. }
  induction s as [|x t IH]; intros b; cbn [length seq combine].
  - split; [intros []|]. intros [_ H]. destruct (r - b)%nat; discriminate.
  - split.
    + intros [E|I]; [injection E as <- <-; rewrite Nat.sub_diag; split; [lia|reflexivity]|]. apply IH in I as [L E]. split; [lia|]. replace (r - b)%nat with (S (r - S b)) by lia. exact E.
    + intros [L E]. destruct (Nat.eq_dec r b) as [-> |N]; [rewrite Nat.sub_diag in E; injection E as <-; now left|]. right. apply IH. split; [lia|]. replace (r - b)%nat with (S (r - S b)) in E by lia. exact E.
Qed.
Lemma in_cands carts s j a : In (s, (j, a)) (cands carts) <-> near_cell s /\ nth_error carts j = Some a.
Proof.
  unfold cands. rewrite in_flat_map. split.
  - intros (s' & I & J). apply in_map_iff in J as (e & E & J). injection E as -> ->. now rewrite <- in_shifts, <- in_enum'.
  - intros [S E]. exists s. split; [now apply in_shifts|]. apply in_map. now apply in_enum'.
Qed.
Lemma fold_cands {S} (f : Z * Z * Z -> S -> nat * vec -> S) carts st :
  fold_left (fun st s => fold_left (f s) (combine (seq 0 (length carts)) carts) st) shifts st = fold_left (fun st c => f (fst c) st (snd c)) (cands carts) st.
Proof.
  unfold cands. rewrite fold_left_flat_map. generalize (combine (seq 0 (length carts)) carts). intros l. revert st. induction shifts as [|s ss IH]; intros st; [reflexivity|]. cbn [fold_left]. rewrite IH. f_equal. clear IH. revert st. induction l as [|e l IH]; intros st; [reflexivity|]. cbn [map fold_left]. apply IH.
Qed.
Lemma zero_shift_spec s : zero_shift s = true <-> s = (0, 0, 0).
Proof. destruct s as [[a b] c]. unfold zero_shift. rewrite !andb_true_iff, !Z.eqb_eq. split; [intros [[-> ->] ->]; reflexivity|intros E; injection E; auto]. Qed.
Lemma nearest_fold root i m f l : forall b, let dist c := root (norm2 (vsub (snd (snd c)) (moved m f (fst c)))) in
  let ok c := ~ (fst (snd c) = i /\ fst c = (0, 0, 0)) in
  let r := fold_left (fun st c => nearest_step root i (moved m f (fst c)) (fst c) st (snd c)) l b in
  (fst r <= fst b)%Q /\ (forall c, In c l -> ok c -> (fst r <= dist c)%Q) /\ (r = b \/ exists c, In c l /\ ok c /\ (dist c < fst b)%Q /\ r = (dist c, Some (fst (snd c), neg3 (fst c)))).
Proof.
  induction l as [|c l IH]; intros b; cbv zeta; cbn [fold_left].
  - split; [apply Qle_refl|]. split; [intros c []|now left].
  - destruct (IH (nearest_step root i (moved m f (fst c)) (fst c) b (snd c))) as (A & B & C). cbv zeta in A, B, C. set (r := fold_left _ l _) in *. clearbody r. clear IH. revert A B C. destruct c as [s [j a]]. unfold nearest_step. cbn [fst snd]. destruct (Nat.eqb j i && zero_shift s) eqn:E.
    + apply andb_prop in E as [E1 E2]. apply Nat.eqb_eq in E1. apply zero_shift_spec in E2. intros A B C. split; [exact A|]. split.
      * intros c [<-|I] K; [exfalso; apply K; split; assumption|auto].
      * destruct C as [-> |(c & I & K)]; [now left|right; exists c; split; [now right|exact K]].
    + assert (K : ~ (j = i /\ s = (0, 0, 0))). { intros [-> ->]. rewrite Nat.eqb_refl in E. discriminate. } destruct s as [[si sj] sk]. destruct (Qltb_spec (root (norm2 (vsub a (moved m f (si, sj, sk))))) (fst b)) as [Q|Q]; cbn [fst]; intros A B C.
      * split; [apply Qlt_le_weak; now apply Qle_lt_trans with (1 := A)|]. split; [intros c [<-|I]; auto|]. right. destruct C as [-> |(c & I & O & D & ->)]; [exists ((si, sj, sk), (j, a)); repeat split; [now left|exact K|exact Q]|exists c; repeat split; [now right|exact O|now apply Qlt_trans with (1 := D)]].
      * split; [exact A|]. split; [intros c [<-|I] O; [now apply Qle_trans with (1 := A)|auto]|]. destruct C as [-> |(c & I & O & D & ->)]; [now left|right; exists c; repeat split; [now right|exact O|exact D]].
Qed.
(** C32: the nearest neighbour of atom [i]: no other atom or image among the neighbouring cells is nearer; the reported
    atom moved by the reported image lies at the reported distance.  Only distances below 100 are found. *)
Theorem C32_nearest root fracs carts m order i f : Permutation order (seq 0 (length fracs)) -> nth_error fracs i = Some f ->
  length (get_atom_nearest_neighbors root fracs carts m order) = length fracs /\
  let '(d, found) := nth i (get_atom_nearest_neighbors root fracs carts m order) (0%Q, None) in
  (d <= 100)%Q /\
  (forall s j a, near_cell s -> nth_error carts j = Some a -> ~ (j = i /\ s = (0, 0, 0)) -> (d <= root (norm2 (vsub a (vmat (vplus f (zvec s)) m))))%Q) /\
  match found with
  | None => d = 100%Q
  | Some (j, im) => exists a w, nth_error carts j = Some a /\ near_cell im /\ ~ (j = i /\ im = (0, 0, 0)) /\ (d < 100)%Q /\ d = root (norm2 w) /\
      veq w (vsub (vplus a (vmat (zvec im) m)) (vmat f m))
  end.
Proof.
  intros P E. assert (L : (i < length fracs)%nat) by (apply nth_error_Some; congruence). unfold get_atom_nearest_neighbors. split; [now rewrite par_loop_length, repeat_length|]. rewrite par_loop_nth by now rewrite repeat_length. rewrite (in_order _ _ _ P L). unfold nearest_atom. rewrite E. cbn [option_map].
  rewrite (fold_cands (fun s => nearest_step root i (moved m f s) s)). destruct (nearest_fold root i m f (cands carts) ((100 # 1)%Q, None)) as (A & B & C). cbv zeta in A, B, C. destruct (fold_left _ (cands carts) _) as [d found]. cbn [fst] in A, B, C. split; [exact A|]. split.
  - intros s j a S J K. rewrite <- moved_vmat. apply (B (s, (j, a))); [now apply in_cands|exact K].
  - destruct C as [C|([s [j a]] & I & O & D & C)]; injection C as -> ->; [reflexivity|]. cbn [fst snd] in *. apply in_cands in I as [S J]. exists a, (vsub a (moved m f s)). split; [exact J|]. destruct s as [[si sj] sk]. cbn [near_cell neg3] in *. split; [lia|]. split; [|split; [exact D|split; [reflexivity|]]].
    + intros [-> EQ]. apply O. split; [reflexivity|]. injection EQ as ? ? ?. f_equal; [f_equal|]; lia.
    + destruct m as [[[[m1 m2] m3] [[p1 p2] p3]] [[q1 q2] q3]], f as [[f1 f2] f3], a as [[x y] z]. unfold veq, moved, frac2cart_numba, vsub, vplus, vmat, zvec. rewrite !inject_Z_opp. repeat split; ring.
Qed.

(** ** Covalent features *)
Definition entry := (Q * vec * Z)%type.
Definition ed (e : entry) : Q := fst (fst e).
(** Distance, vector and number of every image of every atom around the point. *)
Definition entries (root : Q -> Q) (f : vec) (carts : list vec) (m : mat) : list entry :=
  map (fun c => let v := vsub (snd (snd c)) (moved m f (fst c)) in (root (norm2 v), v, Z.of_nat (fst (snd c)))) (cands carts).
(** They are all of them. *)
Lemma entries_in root f carts m e : In e (entries root f carts m) <-> exists s j a, near_cell s /\ nth_error carts j = Some a /\
  let v := vsub a (vmat (vplus f (zvec s)) m) in e = (root (norm2 v), v, Z.of_nat j).
Proof.
  unfold entries. rewrite in_map_iff. split.
  - intros ([s [j a]] & <- & I). apply in_cands in I as [S J]. exists s, j, a. cbn [fst snd]. now rewrite moved_vmat.
  - intros (s & j & a & S & J & ->). exists (s, (j, a)). split; [cbn [fst snd]; now rewrite moved_vmat|now apply in_cands].
Qed.
Lemma entries_length root f carts m : length (entries root f carts m) = (27 * length carts)%nat.
Proof. unfold entries, cands. rewrite map_length. unfold shifts. cbn [flat_map map app]. rewrite !app_length, !map_length, !combine_length, !seq_length, Nat.min_id. cbn [length]. lia. Qed.
Lemma near_fold root f m l : forall st seen e3 rest,
  let e1 := (d1 st, v1 st, a1 st) in let e2 := (d2 st, v2 st, a2 st) in
  Permutation seen (e1 :: e2 :: e3 :: rest) -> ed e3 = d3 st -> (d1 st <= d2 st)%Q -> (d2 st <= d3 st)%Q -> (forall e, In e rest -> d3 st <= ed e)%Q ->
  let st' := fold_left (fun st c => near_step root (moved m f (fst c)) st (snd c)) l st in
  exists e3' rest', Permutation (map (fun c => let v := vsub (snd (snd c)) (moved m f (fst c)) in (root (norm2 v), v, Z.of_nat (fst (snd c)))) l ++ seen)
    ((d1 st', v1 st', a1 st') :: (d2 st', v2 st', a2 st') :: e3' :: rest') /\ ed e3' = d3 st' /\ (d1 st' <= d2 st')%Q /\ (d2 st' <= d3 st')%Q /\ (forall e, In e rest' -> d3 st' <= ed e)%Q.
Proof.
  induction l as [|[s [j a]] l IH]; intros st seen e3 rest; cbv zeta; intros P E O1 O2 R.
  - cbn [fold_left map app]. exists e3, rest. auto.
  - cbn [fold_left map fst snd app]. set (v := vsub a (moved m f s)). set (q := root (norm2 v)). set (x := (q, v, Z.of_nat j) : entry).
    assert (H : exists e3' rest', let st' := near_step root (moved m f s) st (j, a) in Permutation (x :: seen) ((d1 st', v1 st', a1 st') :: (d2 st', v2 st', a2 st') :: e3' :: rest') /\ ed e3' = d3 st' /\ (d1 st' <= d2 st')%Q /\ (d2 st' <= d3 st')%Q /\ (forall e, In e rest' -> d3 st' <= ed e)%Q).
    { unfold near_step. fold v. fold q. destruct (Qle_bool q (d1 st)) eqn:Q1; [|destruct (Qle_bool q (d2 st)) eqn:Q2; [|destruct (Qltb q (d3 st)) eqn:Q3]]; cbv zeta; cbn [d1 d2 d3 v1 v2 a1 a2].
      - apply Qle_bool_iff in Q1. exists (d2 st, v2 st, a2 st), (e3 :: rest). split; [fold x; now constructor|]. split; [reflexivity|]. split; [exact Q1|]. split; [exact O1|]. intros e [<-|I]; [rewrite E; exact O2|apply Qle_trans with (1 := O2); auto].
      - apply Qle_bool_false in Q1. apply Qle_bool_iff in Q2. exists (d2 st, v2 st, a2 st), (e3 :: rest). split; [fold x; rewrite P; apply perm_swap|]. split; [reflexivity|]. split; [now apply Qlt_le_weak|]. split; [exact Q2|]. intros e [<-|I]; [rewrite E; exact O2|apply Qle_trans with (1 := O2); auto].
      - apply Qle_bool_false in Q1. apply Qle_bool_false in Q2. apply Qltb_lt in Q3. exists x, (e3 :: rest). split; [rewrite P; etransitivity; [apply perm_swap|]; constructor; apply perm_swap|]. split; [reflexivity|]. split; [exact O1|]. split; [now apply Qlt_le_weak|]. intros e [<-|I]; [rewrite E; now apply Qlt_le_weak|apply Qlt_le_weak, Qlt_le_trans with (1 := Q3); auto].
      - apply Qltb_ge in Q3. exists e3, (x :: rest). split; [rewrite P; etransitivity; [apply perm_swap|]; constructor; etransitivity; [apply perm_swap|]; constructor; apply perm_swap|]. split; [exact E|]. split; [exact O1|]. split; [exact O2|]. intros e [<-|I]; [exact Q3|auto]. }
    destruct H as (e3' & rest' & H). cbv zeta in H. destruct H as (P' & E' & O1' & O2' & R'). destruct (IH _ (x :: seen) e3' rest' P' E' O1' O2' R') as (e3'' & rest'' & P'' & K). exists e3'', rest''. split; [|exact K]. etransitivity; [|exact P'']. apply Permutation_middle.
Qed.
(** C32: [check_covalent] looks at the three nearest of all images (and three stand-ins at 1e6): the result names the
    atoms of the first two, and is positive exactly if the third is at least 1% further than the second and the angle
    between the first two is large enough. *)
Theorem C32_covalent root arccos junk f carts m angle b x y : check_covalent root arccos junk f carts m angle = Some (b, x, y) ->
  exists e1 e2 e3 rest, Permutation (entries root f carts m ++ repeat (1000000%Q, junk, -1) 3) (e1 :: e2 :: e3 :: rest) /\
    (ed e1 <= ed e2)%Q /\ (ed e2 <= ed e3)%Q /\ (forall e, In e rest -> ed e3 <= ed e)%Q /\ x = snd e1 /\ y = snd e2 /\
    let A := snd (fst e1) in let B := snd (fst e2) in let c := (dot A B / (root (norm2 A) * root (norm2 B)))%Q in
    (b = true <-> (1 # 100 <= (ed e3 - ed e2) / ed e2)%Q /\ exists c', ((c' = c /\ -1 <= c <= 1) \/ (c' = 1 /\ 1 < c) \/ (c' = -1 /\ c < -1))%Q /\ (angle <= arccos c')%Q).
Proof.
  intros H. unfold check_covalent in H. assert (NF : nearest3 root junk f carts m = fold_left (fun st c => near_step root (moved m f (fst c)) st (snd c)) (cands carts) (near_init junk)).
  { unfold nearest3. apply (fold_cands (fun s => near_step root (moved m f s))). }
  destruct (near_fold root f m (cands carts) (near_init junk) (repeat (far, junk, -1) 3) (far, junk, -1) []) as (e3 & rest & P & E & O1 & O2 & R); [reflexivity|reflexivity|apply Qle_refl|apply Qle_refl|intros e []|]. cbv zeta in P, E, O1, O2, R. rewrite <- NF in P, E, O1, O2, R. cbv zeta in H. clear NF. set (st := nearest3 root junk f carts m) in *. clearbody st.
  exists (d1 st, v1 st, a1 st), (d2 st, v2 st, a2 st), e3, rest. cbn [ed fst snd]. rewrite E. split; [exact P|]. split; [exact O1|]. split; [exact O2|]. split; [exact R|]. cbv zeta. set (c := (dot (v1 st) (v2 st) / _)%Q) in *. clearbody c.
  destruct (Qeq_bool (d2 st) 0); [discriminate|]. destruct (Qltb_spec ((d3 st - d2 st) / d2 st) (1 # 100)) as [Q|Q].
  - injection H as <- <- <-. repeat split; try discriminate. intros [C _]. exfalso. apply (Qlt_not_le _ _ Q C).
  - destruct (Qeq_bool _ 0); [discriminate|]. injection H as <- <- <-. split; [reflexivity|]. split; [reflexivity|].
    assert (CL : ((clip1 c = c /\ -1 <= c <= 1) \/ (clip1 c = 1 /\ 1 < c) \/ (clip1 c = -(1) /\ c < -1))%Q).
    { unfold clip1. destruct (Qle_bool c 1) eqn:U; [apply Qle_bool_iff in U|apply Qle_bool_false in U; cbn; auto]. destruct (Qle_bool (-(1)) c) eqn:V; [apply Qle_bool_iff in V|apply Qle_bool_false in V]; [left; repeat split; [exact V|exact U]|auto]. }
    rewrite negb_true_iff, Qltb_ge. split.
    + intros T. split; [exact Q|]. exists (clip1 c). split; [|exact T]. destruct CL as [[-> C]|[[-> C]|[-> C]]]; [left; split; [reflexivity|exact C]|right; left; split; [reflexivity|exact C]|right; right; split; [reflexivity|exact C]].
    + intros (_ & c' & C' & T). destruct CL as [[-> C]|[[-> C]|[-> C]]], C' as [[-> D]|[[-> D]|[-> D]]]; try exact T; exfalso; lra.
Qed.

(** An exception occurs exactly if the second nearest image, or the nearest one, is at distance zero. *)
Theorem C32_covalent_fails root arccos junk f carts m angle : check_covalent root arccos junk f carts m angle = None ->
  exists e1 e2 rest, Permutation (entries root f carts m ++ repeat (1000000%Q, junk, -1) 3) (e1 :: e2 :: rest) /\ (ed e1 <= ed e2)%Q /\ (forall e, In e rest -> ed e2 <= ed e)%Q /\
    (ed e2 == 0 \/ root (norm2 (snd (fst e1))) * root (norm2 (snd (fst e2))) == 0)%Q.
Proof.
  intros H. unfold check_covalent in H. assert (NF : nearest3 root junk f carts m = fold_left (fun st c => near_step root (moved m f (fst c)) st (snd c)) (cands carts) (near_init junk)).
  { unfold nearest3. apply (fold_cands (fun s => near_step root (moved m f s))). }
  destruct (near_fold root f m (cands carts) (near_init junk) (repeat (far, junk, -1) 3) (far, junk, -1) []) as (e3 & rest & P & E & O1 & O2 & R); [reflexivity|reflexivity|apply Qle_refl|apply Qle_refl|intros e []|]. cbv zeta in P, E, O1, O2, R. rewrite <- NF in P, E, O1, O2, R. cbv zeta in H. clear NF. set (st := nearest3 root junk f carts m) in *. clearbody st.
  exists (d1 st, v1 st, a1 st), (d2 st, v2 st, a2 st), (e3 :: rest). cbn [ed fst snd]. split; [exact P|]. split; [exact O1|]. split; [intros e [<-|I]; [rewrite E; exact O2|apply Qle_trans with (1 := O2); auto]|].
  destruct (Qeq_bool (d2 st) 0) eqn:Z2; [left; now apply Qeq_bool_iff|]. destruct (Qltb _ _); [discriminate|]. destruct (Qeq_bool _ 0) eqn:Z1 in H; [right; now apply Qeq_bool_iff|discriminate].
Qed.
(** All features are checked, in any order, each like a single one. *)
Theorem C32_all root arccos junk fs carts m angle order r : Permutation order (seq 0 (length fs)) -> check_all_covalent root arccos junk fs carts m angle order = Some r ->
  length r = length fs /\ forall i f, nth_error fs i = Some f -> exists b x y, check_covalent root arccos junk f carts m angle = Some (b, x, y) /\ nth i r (false, (0, 0)) = (b, (x mod 65536, y mod 65536)).
Proof.
  intros P H. unfold check_all_covalent in H. destruct (forallb _ fs) eqn:F; [|discriminate]. injection H as <-. split; [now rewrite par_loop_length, repeat_length|]. intros i f E. assert (L : (i < length fs)%nat) by (apply nth_error_Some; congruence). rewrite par_loop_nth by now rewrite repeat_length. rewrite (in_order _ _ _ P L), E. rewrite forallb_forall in F. specialize (F f (nth_error_In _ _ E)). destruct (check_covalent root arccos junk f carts m angle) as [[[b x] y]|]; [|discriminate]. exists b, x, y. split; reflexivity.
Qed.

(** ** What does not hold *)
(** C112: the distance is not that of the nearest image: in a skew cell that one may be further away than one cell. *)
Theorem C112_skew_refuted : exists f g m n, inside f /\ inside g /\ forall root : Q -> Q, (forall x y, x < y -> root x < root y)%Q -> (root 10 < 1000000)%Q ->
  (root (norm2 (vsub (vmat g m) (vmat (vplus f (zvec n)) m))) < nth 0 (get_dists_to_atoms root f [vmat g m] m [0%nat]) 0)%Q.
Proof.
  exists (0, 0, 0)%Q, (0, 1 # 2, 0)%Q, ((1, 0, 0), (10, 1, 0), (0, 0, 1))%Q, (5, 0, 0). split; [cbn; repeat split; lra|]. split; [cbn; repeat split; lra|]. intros root MO B.
  destruct (C32_dists root (0, 0, 0)%Q [vmat (0, 1 # 2, 0)%Q ((1, 0, 0), (10, 1, 0), (0, 0, 1))%Q] ((1, 0, 0), (10, 1, 0), (0, 0, 1))%Q [0%nat] 0 _ (Permutation_refl _) eq_refl) as (_ & _ & _ & [-> |(s & S & ->)]).
  - apply Qlt_trans with (2 := B). apply MO. vm_compute. reflexivity.
  - apply MO. apply in_shifts in S. cbn in S. repeat (destruct S as [<-|S]; [vm_compute; reflexivity|]). destruct S.
Qed.
(** C113: a neighbour further than 100 is not found. *)
Theorem C113_far_refuted : exists (root : Q -> Q) fracs carts m, map snd (get_atom_nearest_neighbors root fracs carts m [0%nat]) = [None] /\ carts = map (fun f => vmat f m) fracs.
Proof. exists (fun q => if Qle_bool q 10000 then q else 200)%Q, [(0, 0, 0)%Q], [(0, 0, 0)%Q], ((200, 0, 0), (0, 200, 0), (0, 0, 200))%Q. split; vm_compute; reflexivity. Qed.
(** C114: a feature on an atom raises an exception. *)
Theorem C114_on_atom_refuted : exists (root : Q -> Q) f carts m junk angle, (forall q, In q [0; 1 # 16; 9 # 16; 1]%Q -> root q * root q == q)%Q /\
  forall arccos, check_covalent root arccos junk f carts m angle = None.
Proof.
  exists (fun q => if Qeq_bool q (1 # 16) then 1 # 4 else if Qeq_bool q (9 # 16) then 3 # 4 else q)%Q, (0, 0, 0)%Q, [(0, 0, 0)%Q; (1 # 4, 0, 0)%Q], ((1, 0, 0), (0, 3, 0), (0, 0, 3))%Q, (0, 0, 0)%Q, 0%Q.
  split; [intros q I; cbn in I; repeat (destruct I as [<-|I]; [vm_compute; reflexivity|]); destruct I|]. intros arccos. vm_compute. reflexivity.
Qed.

(** ** Examples and assumptions *)
Definition cell : mat := ((4, 0, 0), (0, 4, 0), (0, 0, 8))%Q.
(** Squared distances. *)
Example C32_example_dists : map Qred (get_dists_to_atoms (fun q => q) (0, 0, 7 # 8)%Q [(0, 0, 0)%Q; (2, 2, 4)%Q] cell [1; 0]%nat) = [1; 17]%Q.
Proof. vm_compute. reflexivity. Qed.
Example C32_example_nearest : map (fun e => (Qred (fst e), snd e)) (get_atom_nearest_neighbors (fun q => q) [(0, 0, 0); (3 # 4, 0, 0)]%Q [(0, 0, 0); (3, 0, 0)]%Q cell [1; 0]%nat) =
  [(1%Q, Some (1%nat, (-1, 0, 0))); (1%Q, Some (0%nat, (1, 0, 0)))].
Proof. vm_compute. reflexivity. Qed.
Example C32_example_covalent : check_covalent (fun q => q) (fun c => 1 - c)%Q (0, 0, 0)%Q (0, 0, 1 # 8)%Q [(0, 0, 0); (0, 0, 2); (2, 2, 1)]%Q cell (3 # 2)%Q = Some (true, 1, 0).
Proof. vm_compute. reflexivity. Qed.
Print Assumptions C32_dists.
Print Assumptions C32_right_angles.
Print Assumptions C32_nearest.
Print Assumptions C32_covalent.
Print Assumptions C32_covalent_fails.
Print Assumptions C32_all.
Print Assumptions C112_skew_refuted.
Print Assumptions C113_far_refuted.
Print Assumptions C114_on_atom_refuted.
