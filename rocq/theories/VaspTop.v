(** A whole VASP file. *)
From Coq Require Import Ascii String QArith Qround Qabs Lqa Lia.
From Verif Require Import Base GridModel GridProofs ChargeModel NearModel NearProofs TextModel TextProofs FmtProofs GobjModel VaspModel VaspProofs.
Local Open Scope Z_scope.

Lemma blocks_total u n : ~ In newline u -> (1 <= n)%nat -> let dims := nl u in let nb := (18 * n + (n + 4) / 5)%nat in
  forall rest s f, good_set dims n s -> Forall (good_set dims n) rest -> (1 < f)%nat ->
  exists r, blocks f true n nb (strip dims) (block (fst s) ++ List.concat (snd s) ++ after dims rest) [] = Some [r] /\ got r s.
Proof.
  intros NU N dims nb rest s f (LS & OS & GS) FR L. destruct f as [|f]; [lia|].
  assert (LB : length (block (fst s)) = nb) by (rewrite (block_length (length (fst s)) (fst s) (le_n _) OS), LS; reflexivity).
  cbn [blocks]. set (R := after dims rest). destruct (block (fst s) ++ List.concat (snd s) ++ R) as [|c t] eqn:ET; [apply (f_equal (@length ascii)) in ET; rewrite app_length in ET; cbn [length] in ET; lia|]. rewrite <- ET. cbn [andb length Nat.eqb].
  rewrite firstn_app, <- LB, firstn_all, Nat.sub_diag. cbn [firstn]. destruct (fromstring_block 0 [] (length (fst s)) (fst s) (le_n _) OS) as (vs & E & V). cbn [fromstring] in E. rewrite Nat.add_0_r, app_nil_r, LS in E. rewrite app_nil_r in E |- *. rewrite E.
  assert (LV := Forall2_len _ _ _ V). rewrite LV, LS, Nat.ltb_irrefl. replace (Nat.ltb (length (block (fst s) ++ List.concat (snd s) ++ R)) (length (block (fst s)))) with false by (symmetry; apply Nat.ltb_ge; rewrite app_length; lia).
  rewrite skipn_app, skipn_all, Nat.sub_diag. cbn [app skipn]. rewrite aug_spec; [|exact GS| |].
  - exists (vs, List.concat (snd s)). split; [|split; [exact V|reflexivity]]. destruct f as [|f]; [lia|]. cbn [blocks app]. destruct (snd (readline R)); reflexivity.
  - destruct rest as [|s' rest]; [left; reflexivity|]. right. exists u. assert (ERL : readline R = (dims, block (fst s') ++ List.concat (snd s') ++ after dims rest)) by (apply readline_nl; exact NU). rewrite ERL. cbn [snd]. auto.
  - clear - GS. rewrite !app_length. enough (length (snd s) <= length (List.concat (snd s)))%nat by lia. induction GS as [|l ls (x & -> & _) G IH]; [cbn; lia|]. cbn [List.concat length]. unfold nl. rewrite !app_length. cbn [length]. lia.
Qed.

(** ** Order of the values *)
Lemma nth_flat {A B} (f : A -> list B) m d da : forall l, (forall a, In a l -> length (f a) = m) -> forall i j, (i < length l)%nat -> (j < m)%nat -> nth (i * m + j) (flat_map f l) d = nth j (f (nth i l da)) d.
Proof.
  induction l as [|a l IH]; intros H i j I J; [cbn in I; lia|]. cbn [flat_map]. assert (LA := H a (or_introl eq_refl)). destruct i as [|i].
  - cbn [Nat.mul Nat.add nth]. rewrite app_nth1 by lia. reflexivity.
  - rewrite app_nth2 by (rewrite LA; cbn [Nat.mul]; lia). rewrite LA. replace (S i * m + j - m)%nat with (i * m + j)%nat by (cbn [Nat.mul]; lia). rewrite IH; [reflexivity| |cbn in I; lia|exact J]. intros b Hb. apply H. now right.
Qed.
Lemma zrange_nth n i d : 0 <= i < n -> nth (Z.to_nat i) (zrange n) d = i.
Proof. intros H. unfold zrange. rewrite nth_indep with (d' := Z.of_nat 0) by (rewrite map_length, seq_length; lia). rewrite map_nth, seq_nth by lia. lia. Qed.
Lemma zrange_length n : length (zrange n) = Z.to_nat n.
Proof. unfold zrange. now rewrite map_length, seq_length. Qed.
Lemma flat_len {A B} (f : A -> list B) m : forall l, (forall a, In a l -> length (f a) = m) -> length (flat_map f l) = (length l * m)%nat.
Proof. induction l as [|a l IH]; intros H; [reflexivity|]. cbn [flat_map length Nat.mul]. rewrite app_length, (H a (or_introl eq_refl)), IH; [reflexivity|]. intros b Hb. apply H. now right. Qed.
Lemma voxels_nth nx ny nz i j k : 0 <= i < nx -> 0 <= j < ny -> 0 <= k < nz -> nth (Z.to_nat ((i * ny + j) * nz + k)) (voxels nx ny nz) (0, 0, 0) = (i, j, k).
Proof.
  intros I J K. unfold voxels. set (g := fun i0 j0 : Z => map (fun k0 : Z => (i0, j0, k0)) (zrange nz)). change (nth (Z.to_nat ((i * ny + j) * nz + k)) (flat_map (fun i0 => flat_map (g i0) (zrange ny)) (zrange nx)) (0, 0, 0) = (i, j, k)). assert (LG : forall i0 j0, length (g i0 j0) = Z.to_nat nz) by (intros; unfold g; rewrite map_length; apply zrange_length).
  assert (LF : forall i0, length (flat_map (g i0) (zrange ny)) = (Z.to_nat ny * Z.to_nat nz)%nat) by (intros i0; rewrite (flat_len (g i0) (Z.to_nat nz)) by (intros; apply LG); now rewrite zrange_length).
  replace (Z.to_nat ((i * ny + j) * nz + k)) with (Z.to_nat i * (Z.to_nat ny * Z.to_nat nz) + (Z.to_nat j * Z.to_nat nz + Z.to_nat k))%nat by nia.
  rewrite (nth_flat (fun i0 => flat_map (g i0) (zrange ny)) _ _ 0) by (try (intros; apply LF); try (rewrite zrange_length; lia); nia).
  rewrite zrange_nth by lia. rewrite (nth_flat (g i) _ _ 0) by (try (intros; apply LG); try (rewrite zrange_length; lia); lia). rewrite zrange_nth by lia. unfold g.
  rewrite nth_indep with (d' := (i, j, 0)) by (rewrite map_length, zrange_length; lia). rewrite (map_nth (fun k0 => (i, j, k0)) (zrange nz) 0). now rewrite zrange_nth by lia.
Qed.
Lemma voxels_len nx ny nz : 0 <= nx -> 0 <= ny -> 0 <= nz -> length (voxels nx ny nz) = Z.to_nat (nx * ny * nz).
Proof.
  intros X Y Z0. unfold voxels. rewrite (flat_len _ (Z.to_nat ny * Z.to_nat nz)%nat); [rewrite zrange_length; nia|]. intros i _. rewrite (flat_len _ (Z.to_nat nz)); [now rewrite zrange_length|]. intros j _. now rewrite map_length, zrange_length.
Qed.
Lemma ravel_len a nx ny nz : a_shape a = (nx, ny, nz) -> 1 <= nx -> 1 <= ny -> 1 <= nz -> length (ravel a) = Z.to_nat (nx * ny * nz).
Proof. intros S X Y Z0. unfold ravel, forder. rewrite S, !map_length, voxels_len by lia. f_equal. ring. Qed.
Lemma ravel_nth a nx ny nz i j k d : a_shape a = (nx, ny, nz) -> 0 <= i < nx -> 0 <= j < ny -> 0 <= k < nz -> nth (Z.to_nat (i + nx * (j + ny * k))) (ravel a) d = a_at a i j k.
Proof.
  intros S I J K. unfold ravel, forder. rewrite S, map_map. set (h := fun x : Z * Z * Z => let '(i0, j0, k0) := let '(k0, j0, i0) := x in (i0, j0, k0) in a_at a i0 j0 k0).
  rewrite nth_indep with (d' := h (0, 0, 0)) by (rewrite map_length, voxels_len by lia; assert (A : j + ny * k + 1 <= ny * nz) by nia; assert (0 <= ny * k) by nia; assert (0 <= nx * (j + ny * k)) by nia; apply Z2Nat.inj_lt; nia). rewrite (map_nth h). replace (i + nx * (j + ny * k)) with ((k * ny + j) * nx + i) by ring. now rewrite voxels_nth by lia.
Qed.

(** ** The header *)
Definition small (k : Z) (q : Q) : Prop := (Qabs q * 2000000 < inject_Z (10 ^ k) * 2000000 - 1)%Q.
Definition near_micro (q v : Q) : Prop := (Qabs (v - q) <= 1 # 2000000)%Q /\ exists n, (v == inject_Z n / 1000000)%Q.
Definition all3 (P : Q -> Prop) (v : vec) : Prop := let '(x, y, z) := v in P x /\ P y /\ P z.
Definition rel3 (R : Q -> Q -> Prop) (v w : vec) : Prop := let '(x, y, z) := v in let '(a, b, c) := w in R x a /\ R y b /\ R z c.

Lemma f6_item w k q : 1 <= k -> k + 8 < Z.of_nat w -> small k q -> exists n, (1 <= n)%nat /\ fmt_f6 w q = repeat space n ++ fixed_body q.
Proof. intros K W S. exists (w - length (fixed_body q))%nat. split; [|apply fmt_f6_pad]. pose proof (fixed_length q k K S). lia. Qed.
Lemma fixed_float q : exists v, float_of (fixed_body q) = Some v /\ near_micro q v.
Proof. destruct (fixed_parse q [] I I) as (v & E & A & B). rewrite app_nil_r in E. exists v. unfold float_of. rewrite E. split; [reflexivity|split; assumption]. Qed.
Lemma row_words w k v s : 1 <= k -> k + 8 < Z.of_nat w -> all3 (small k) v -> Forall (fun c => is_space c = true) s ->
  exists v', map_opt float_of (split (row_text w v ++ s)) = Some v' /\ firstn 3 (split (row_text w v ++ s)) = split (row_text w v ++ s) /\ exists v'', vec_of v' = Some v'' /\ rel3 near_micro v v''.
Proof.
  intros K W A S. destruct v as [[x y] z]. destruct A as (X & Y & Z0). unfold row_text. destruct (f6_item w k x K W X) as (nx & NX & ->). destruct (f6_item w k y K W Y) as (ny & NY & ->). destruct (f6_item w k z K W Z0) as (nz & NZ & ->).
  replace (((repeat space nx ++ fixed_body x) ++ (repeat space ny ++ fixed_body y) ++ repeat space nz ++ fixed_body z) ++ s) with (List.concat (map (fun '(k, w) => repeat space k ++ w) [(nx, fixed_body x); (ny, fixed_body y); (nz, fixed_body z)]) ++ s) by (cbn [map List.concat]; now rewrite app_nil_r).
  rewrite split_items; [|repeat constructor; auto using fixed_word|exact S]; try (now apply fixed_word). cbn [map snd map_opt].
  destruct (fixed_float x) as (a & EA & RA). destruct (fixed_float y) as (b & EB & RB). destruct (fixed_float z) as (c & EC & RC). rewrite EA, EB, EC. exists [a; b; c]. split; [reflexivity|]. split; [reflexivity|]. exists (a, b, c). repeat split; try apply RA; try apply RB; try apply RC.
Qed.
Lemma fixed_no_newline w q : ~ In newline (fmt_f6 w q).
Proof. rewrite fmt_f6_pad. intros I. apply in_app_iff in I as [I|I]; [apply repeat_spec in I; discriminate|]. revert I. apply no_space_no_newline, fixed_word. Qed.
Lemma row_no_newline w v : ~ In newline (row_text w v).
Proof. destruct v as [[x y] z]. unfold row_text. intros I. apply in_app_iff in I as [I|I]; [now apply fixed_no_newline in I|]. apply in_app_iff in I as [I|I]; now apply fixed_no_newline in I. Qed.
Lemma nl_blank : Forall (fun c => is_space c = true) [newline].
Proof. repeat constructor. Qed.
Lemma vec_line_spec v : all3 (small 3) v -> exists v', vec_line (nl (space :: row_text 12 v)) = Some v' /\ rel3 near_micro v v'.
Proof.
  intros A. unfold vec_line, floats_of, nl. change ((space :: row_text 12 v) ++ [newline]) with ([space] ++ row_text 12 v ++ [newline]). rewrite split_spaces by repeat constructor.
  destruct (row_words 12 3 v [newline] ltac:(lia) ltac:(lia) A nl_blank) as (l & E & _ & v' & E' & R). rewrite E. cbn [obnd]. eauto.
Qed.
Lemma coord_line_spec v : all3 (small 1) v -> exists v', coord_line (nl (row_text 10 v)) = Some v' /\ rel3 near_micro v v'.
Proof.
  intros A. unfold coord_line, nl. destruct (row_words 10 1 v [newline] ltac:(lia) ltac:(lia) A nl_blank) as (l & E & E3 & v' & E' & R). rewrite E3, E. cbn [obnd]. eauto.
Qed.
Lemma coord_lines_spec r : forall (sites : list (text * vec)), Forall (fun s => all3 (small 1) (snd s)) sites ->
  exists vs, coord_lines (length sites) (List.concat (map (fun '(_, v) => nl (row_text 10 v)) sites) ++ r) = Some (vs, r) /\ Forall2 (fun s v => rel3 near_micro (snd s) v) sites vs.
Proof.
  induction sites as [|[s v] sites IH]; intros F; [exists []; split; [reflexivity|constructor]|]. inversion F as [|? ? A F']; subst. cbn [length coord_lines map List.concat]. rewrite <- app_assoc. rewrite readline_nl by apply row_no_newline.
  destruct (coord_line_spec v A) as (v' & E & R). rewrite E. cbn [obnd]. destruct (IH F') as (vs & E' & R'). rewrite E'. cbn [obnd]. exists (v' :: vs). split; [reflexivity|constructor; assumption].
Qed.

(** Runs of equal symbols. *)
Lemma runs_expand l : List.concat (map (fun '(s, n) => repeat s (Z.to_nat n)) (runs l)) = l /\ Forall (fun '(s, n) => 1 <= n /\ In s l) (runs l).
Proof.
  induction l as [|s l [IH F]]; [split; [reflexivity|constructor]|]. cbn [runs]. destruct (runs l) as [|[s' n] r] eqn:E.
  - cbn in IH. subst l. split; [reflexivity|]. constructor; [split; [lia|now left]|constructor].
  - pose proof (Forall_inv F) as [N1 N2]. assert (FT := Forall_inv_tail F). assert (FT' : Forall (fun '(s0, n0) => 1 <= n0 /\ In s0 (s :: l)) r) by (eapply Forall_impl; [|exact FT]; intros [s0 n0] [A B]; split; [exact A|now right]).
    destruct (text_eqb s s') eqn:Q.
    + apply text_eqb_spec in Q. subst s'. cbn [map List.concat]. split.
      * replace (Z.to_nat (n + 1)) with (S (Z.to_nat n)) by lia. cbn [repeat app]. f_equal. exact IH.
      * constructor; [split; [lia|now left]|exact FT'].
    + split; [cbn [map List.concat]; change (repeat s (Z.to_nat 1)) with [s]; cbn [app]; f_equal; exact IH|]. constructor; [split; [lia|now left]|]. constructor; [split; [exact N1|now right]|exact FT'].
Qed.
Lemma runs_sum l : fold_left Z.add (map snd (runs l)) 0 = Z.of_nat (length l).
Proof.
  destruct (runs_expand l) as [E F]. rewrite <- E at 2. clear E. assert (G : forall rs a, Forall (fun '(s, n) => 1 <= n /\ In s l) rs -> fold_left Z.add (map snd rs) a = a + Z.of_nat (length (List.concat (map (fun '(s, n) => repeat s (Z.to_nat n)) rs)))).
  { clear. induction rs as [|[s n] rs IH]; intros a F; [cbn; lia|]. pose proof (Forall_inv F) as [N _]. cbn [map List.concat fold_left snd]. rewrite IH by (eapply Forall_inv_tail; exact F). rewrite app_length, repeat_length. lia. }
  rewrite (G _ 0 F). lia.
Qed.
Lemma combine_fst_snd {A B} (l : list (A * B)) : combine (map fst l) (map snd l) = l.
Proof. induction l as [|[a b] l IH]; [reflexivity|]. cbn. now rewrite IH. Qed.

Lemma int_item w n k : 0 <= n < 10 ^ k -> 1 <= k -> k < Z.of_nat w -> exists j, (1 <= j)%nat /\ fmt_int w n = repeat space j ++ str_int n.
Proof. intros N K W. exists (w - length (str_int n))%nat. split; [|reflexivity]. pose proof (str_int_length n k N K). lia. Qed.
Lemma ints_spec w l s : 5 < Z.of_nat w -> Forall (fun n => 0 <= n < 100000) l -> Forall (fun c => is_space c = true) s -> ints_of (List.concat (map (fmt_int w) l) ++ s) = Some l.
Proof.
  intros W F S. unfold ints_of. assert (E : exists items, List.concat (map (fmt_int w) l) = List.concat (map (fun '(k, w) => repeat space k ++ w) items) /\ map snd items = map str_int l /\ Forall (fun '(k, w) => (1 <= k)%nat /\ word w) items).
  { induction F as [|n l N F (items & E1 & E2 & E3)]; [exists []; auto|]. destruct (int_item w n 5 ltac:(cbn; lia) ltac:(lia) W) as (j & J & EJ). exists ((j, str_int n) :: items). cbn [map List.concat snd]. rewrite EJ, E1, E2. split; [reflexivity|]. split; [reflexivity|]. constructor; [split; [exact J|apply str_int_word]|exact E3]. }
  destruct E as (items & -> & E2 & E3). rewrite split_items by assumption. etransitivity; [apply f_equal; exact E2|]. clear. induction l as [|n l IH]; [reflexivity|]. cbn [map map_opt]. now rewrite int_of_str, IH.
Qed.
Lemma fmt_int_no_newline w n : ~ In newline (fmt_int w n).
Proof. unfold fmt_int, pad_left. intros I. apply in_app_iff in I as [I|I]; [apply repeat_spec in I; discriminate|]. revert I. apply no_space_no_newline, str_int_word. Qed.
Lemma concat_no_newline {A} (f : A -> text) l : (forall a, In a l -> ~ In newline (f a)) -> ~ In newline (List.concat (map f l)).
Proof. intros H I. apply in_concat in I as (t & T & I). apply in_map_iff in T as (a & <- & A0). now apply H in A0. Qed.

(** ** Reading back *)
Definition near11 (q v : Q) : Prop :=
  ((q == 0)%Q /\ (v == 0)%Q) \/
  exists e, scale q e /\ (Qabs (v - q) <= (1 # 2) * pow10 (e - 11))%Q /\ exists m, (v == inject_Z m * pow10 (e - 11))%Q.
Definition fits (q : Q) : Prop :=
  (q == 0)%Q \/ exists e, -100 < e < 100 /\ scale q e /\ (Qabs q * 200000000000 < 199999999999 * pow10 e)%Q.
Definition pair_of (q : Q) : Z * Z := (fortran_mant q, fortran_exp q).
Lemma fits_pair q : fits q -> ok_pair (pair_of q).
Proof.
  intros [Q0|(e & E & S & C)]; unfold ok_pair, pair_of; cbn [fst snd].
  - unfold fortran_mant, fortran_exp. rewrite (proj2 (Qeq_bool_iff q 0) Q0). split; [now right|reflexivity].
  - rewrite (exp_scale q e S). split; [|lia]. left. pose proof (mant_range q e S). pose proof (mant_nocarry q e S C). lia.
Qed.
Lemma value_near q v : fits q -> (v == value (pair_of q))%Q -> near11 q v.
Proof.
  intros [Q0|(e & E & S & C)] V; unfold value, pair_of in V; cbn [fst snd] in V.
  - left. split; [exact Q0|]. unfold fortran_mant in V. rewrite (proj2 (Qeq_bool_iff q 0) Q0) in V. exact V.
  - right. exists e. split; [exact S|]. pose proof (mant_range q e S). replace (fortran_mant q =? 0) with false in V by lia. rewrite (exp_scale q e S) in V. split; [rewrite V; now apply mant_near|]. exists (fortran_mant q). exact V.
Qed.
Lemma near11_exact q v m k : Z.abs m < e11 -> (q == inject_Z m * pow10 k)%Q -> near11 q v -> (v == q)%Q.
Proof.
  intros M Q [(Q0 & V0)|(e & S & D & m' & V)]; [now rewrite Q0, V0|].
  assert (INT : exists z, (q == inject_Z z * pow10 (e - 11))%Q).
  { destruct (Z_le_gt_dec (e - 11) k) as [L|G].
    - exists (m * 10 ^ (k - (e - 11))). rewrite inject_Z_mult, <- pow10_Z by lia. rewrite Q. replace k with (k - (e - 11) + (e - 11)) at 1 by lia. rewrite pow10_add. ring.
    - exfalso. destruct S as [S _]. rewrite Q, Qabs_Qmult, (Qabs_pos (pow10 k)) in S by apply Qlt_le_weak, pow10_pos. change (Qabs (inject_Z m)) with (inject_Z (Z.abs m)) in S.
      assert (B : (inject_Z (Z.abs m) < pow10 11)%Q) by (rewrite pow10_Z by lia; change (10 ^ 11) with e11; rewrite <- Zlt_Qlt; exact M).
      assert (L : (inject_Z (Z.abs m) * pow10 k < pow10 11 * pow10 k)%Q) by (apply Qmult_lt_r; [apply pow10_pos|exact B]). rewrite <- pow10_add in L.
      assert ((pow10 (11 + k) <= pow10 (e - 1))%Q) by (apply pow10_mono; lia). lra. }
  destruct INT as (z & ZQ). assert (E : m' = z).
  { rewrite V, ZQ in D. assert (F : (inject_Z m' * pow10 (e - 11) - inject_Z z * pow10 (e - 11) == inject_Z (m' - z) * pow10 (e - 11))%Q) by (unfold Z.sub; rewrite inject_Z_plus, inject_Z_opp; ring).
    rewrite F, Qabs_Qmult, (Qabs_pos (pow10 (e - 11))) in D by apply Qlt_le_weak, pow10_pos. apply Qmult_le_r in D; [|apply pow10_pos]. change (Qabs (inject_Z (m' - z))) with (inject_Z (Z.abs (m' - z))) in D.
    assert (~ 1 <= Z.abs (m' - z)). { intros O. rewrite Zle_Qle in O. change (inject_Z 1) with 1%Q in O. lra. } lia. }
  rewrite V, ZQ, E. reflexivity.
Qed.

Lemma dims_no_newline s : ~ In newline (dims_text s).
Proof. destruct s as [[nx ny] nz]. unfold dims_text. intros I. apply in_app_iff in I as [I|I]; [now apply fmt_int_no_newline in I|]. apply in_app_iff in I as [I|I]; now apply fmt_int_no_newline in I. Qed.
Lemma dims_ints nx ny nz : 1 <= nx < 100000 -> 1 <= ny < 100000 -> 1 <= nz < 100000 -> ints_of (nl (dims_text (nx, ny, nz))) = Some [nx; ny; nz].
Proof.
  intros X Y Z0. unfold nl, dims_text. replace (fmt_int 6 nx ++ fmt_int 6 ny ++ fmt_int 6 nz) with (List.concat (map (fmt_int 6) [nx; ny; nz])) by (cbn [map List.concat]; now rewrite app_nil_r). apply ints_spec; [lia| |exact nl_blank]. repeat constructor; lia.
Qed.

(** The text of a stored array and its augmentation lines. *)
Definition set_of (a : arr) (ls : list text) : one_set := (map pair_of (ravel a), ls).
Definition good_arr (s : Z * Z * Z) (a : arr) : Prop := a_shape a = s /\ let '(nx, ny, nz) := s in forall i j k, 0 <= i < nx -> 0 <= j < ny -> 0 <= k < nz -> fits (a_at a i j k).
Lemma good_set_of nx ny nz a ls : 1 <= nx -> 1 <= ny -> 1 <= nz -> good_arr (nx, ny, nz) a -> Forall (good_line (nl (dims_text (nx, ny, nz)))) ls ->
  good_set (nl (dims_text (nx, ny, nz))) (Z.to_nat (nx * ny * nz)) (set_of a ls).
Proof.
  intros X Y Z0 [S G] L. split; [cbn; rewrite map_length; now apply ravel_len|]. split; [|exact L]. cbn [set_of fst]. apply Forall_map. unfold ravel, forder. rewrite S. apply Forall_map, Forall_map, Forall_forall. intros [[k j] i] I. apply in_voxels in I. apply fits_pair, G; apply I.
Qed.
Definition arr_near (a b : arr) : Prop :=
  a_shape b = a_shape a /\ let '(nx, ny, nz) := a_shape a in forall i j k, 0 <= i < nx -> 0 <= j < ny -> 0 <= k < nz -> near11 (a_at a i j k) (a_at b i j k).
Lemma Forall2_nth {A B} (R : A -> B -> Prop) l m : Forall2 R l m -> forall n a b, (n < length l)%nat -> R (nth n l a) (nth n m b).
Proof. induction 1 as [|x y l m XY F IH]; intros n a b N; [cbn in N; lia|]. destruct n as [|n]; [exact XY|]. apply IH. cbn in N. lia. Qed.
Lemma reshape_near nx ny nz a ls r : 1 <= nx -> 1 <= ny -> 1 <= nz -> good_arr (nx, ny, nz) a -> got r (set_of a ls) -> arr_near a (reshape (nx, ny, nz) (fst r)) /\ snd r = List.concat ls.
Proof.
  intros X Y Z0 [S G] [V E]. split; [|exact E]. unfold arr_near, reshape. rewrite S. cbn [a_shape a_at]. split; [reflexivity|]. intros i j k I J K. cbn [set_of fst] in V. apply value_near; [now apply G|].
  assert (LV := Forall2_len _ _ _ V). rewrite map_length, (ravel_len a nx ny nz S X Y Z0) in LV.
  assert (N : (Z.to_nat (i + nx * (j + ny * k)) < length (fst r))%nat).
  { rewrite LV. assert (A : j + ny * k + 1 <= ny * nz) by nia. assert (0 <= ny * k) by nia. assert (0 <= nx * (j + ny * k)) by nia. apply Z2Nat.inj_lt; nia. }
  pose proof (Forall2_nth _ _ _ V _ 0%Q (pair_of 0%Q) N) as H. cbv beta in H. rewrite (map_nth pair_of (ravel a) 0%Q), (ravel_nth a nx ny nz i j k 0%Q S I J K) in H. exact H.
Qed.

Lemma good_aug_lines dims a : (forall l, In l (aug_items a) -> exists x, (l = x \/ l = nl x) /\ ~ In newline x /\ strip (nl x) <> strip dims) ->
  exists ls, aug_text a = List.concat ls /\ Forall (good_line dims) ls.
Proof.
  unfold aug_text. generalize (aug_items a). intros l H. exists (map (fun l0 => if ends_newline l0 then l0 else l0 ++ [newline]) l). split; [reflexivity|]. apply Forall_map, Forall_forall. intros t T. destruct (H t T) as (x & X & NX & S).
  exists x. assert (E : (if ends_newline t then t else t ++ [newline]) = nl x).
  { destruct X as [->| ->].
    - unfold ends_newline. destruct (rev x) as [|c r] eqn:R; [reflexivity|]. destruct (Ascii.eqb c newline) eqn:C; [|reflexivity]. apply Ascii.eqb_eq in C. exfalso. apply NX. apply in_rev. rewrite R. now left.
    - unfold ends_newline, nl. rewrite rev_app_distr. reflexivity. }
  rewrite E. auto.
Qed.
