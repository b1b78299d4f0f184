(** Properties of VASP files and of the number format. *)
From Coq Require Import Ascii String QArith Qround Qabs Lqa Lia.
From Verif Require Import Base GridModel GridProofs ChargeModel NearModel NearProofs TextModel TextProofs FmtProofs GobjModel VaspModel VaspProofs VaspTop.
Local Open Scope Z_scope.

Definition solid (t : text) : text := filter (fun c => negb (is_space c)) t.
Lemma solid_drop t : solid (drop_space t) = solid t.
Proof.
  unfold drop_space. pose proof (span_spec is_space t) as SP. destruct (span is_space t) as [a b]. destruct SP as (-> & F & _). cbn [snd]. unfold solid. rewrite filter_app. induction F as [|c a C F IH]; [reflexivity|]. cbn [filter app]. rewrite C. exact IH.
Qed.
Lemma solid_rev t : solid (rev t) = rev (solid t).
Proof. unfold solid. induction t as [|c t IH]; [reflexivity|]. cbn [rev filter]. rewrite filter_app, IH. cbn [filter]. destruct (negb (is_space c)); [reflexivity|apply app_nil_r]. Qed.
Lemma solid_strip t : solid (strip t) = solid t.
Proof. unfold strip. rewrite solid_rev, solid_drop, solid_rev, solid_drop. apply rev_involutive. Qed.
Lemma solid_app a b : solid (a ++ b) = solid a ++ solid b.
Proof. apply filter_app. Qed.
Lemma solid_int w n : (1 <= length (solid (fmt_int w n)))%nat.
Proof. unfold fmt_int, pad_left. rewrite solid_app, app_length. destruct (str_int_word n) as [N F]. destruct (str_int n) as [|c t]; [congruence|]. inversion F as [|? ? C _]; subst. unfold solid at 2. cbn [filter]. rewrite C. cbn [negb length]. lia. Qed.
Lemma char_not_dims s c : strip (nl [c]) <> strip (nl (dims_text s)).
Proof.
  intros E. apply (f_equal solid) in E. rewrite !solid_strip in E. apply (f_equal (@length ascii)) in E. unfold nl in E. rewrite !solid_app in E. change (solid [newline]) with (@nil ascii) in E. rewrite !app_nil_r in E. destruct s as [[nx ny] nz]. unfold dims_text in E. rewrite !solid_app, !app_length in E.
  pose proof (solid_int 6 nx). pose proof (solid_int 6 ny). pose proof (solid_int 6 nz). assert ((length (solid [c]) <= 1)%nat) by (unfold solid; cbn [filter]; destruct (negb (is_space c)); cbn; lia). lia.
Qed.

(** What can be written: numbers narrower than their columns, symbols of at most four characters, values of
    eleven digits with a two-digit exponent, augmentation lines that are not a line of grid dimensions. *)
Definition plain_line (s : Z * Z * Z) (l : text) : Prop := exists x, (l = x \/ l = nl x) /\ ~ In newline x /\ strip (nl x) <> strip (nl (dims_text s)).
Record storable (s : Z * Z * Z) (g : vgrid) : Prop := {
  st_matrix : let '(a, b, c) := v_matrix g in all3 (small 3) a /\ all3 (small 3) b /\ all3 (small 3) c;
  st_sites : Forall (fun x => (word (fst x) /\ (length (fst x) <= 4)%nat) /\ all3 (small 1) (snd x)) (v_sites g);
  st_count : Z.of_nat (length (v_sites g)) < 100000;
  st_dims : let '(nx, ny, nz) := s in 1 <= nx < 100000 /\ 1 <= ny < 100000 /\ 1 <= nz < 100000;
  st_total : lookup Total (v_data g) <> None;
  st_data : forall k a, lookup k (v_data g) = Some a -> (k = Total \/ k = Diff) /\ good_arr s a;
  st_aug : forall k ls, lookup k (v_aug g) = Some (AugLines ls) -> Forall (plain_line s) ls }.
(** What is read back. *)
Definition same_file (g g' : vgrid) : Prop :=
  (let '(a, b, c) := v_matrix g in let '(a', b', c') := v_matrix g' in rel3 near_micro a a' /\ rel3 near_micro b b' /\ rel3 near_micro c c') /\
  Forall2 (fun x y => fst y = fst x /\ rel3 near_micro (snd x) (snd y)) (v_sites g) (v_sites g').

Lemma near_micro_scale q v w : (w == 1)%Q -> near_micro q v -> near_micro q (v * w).
Proof. intros W [A (n & N)]. assert (E : (v * w == v)%Q) by (rewrite W; ring). split; [rewrite E; exact A|]. exists n. rewrite E. exact N. Qed.
Lemma rel3_scale v v' w : (w == 1)%Q -> rel3 near_micro v v' -> rel3 near_micro v (vmap (fun x => x * w)%Q v').
Proof. destruct v as [[x y] z], v' as [[x' y'] z']. cbn. intros W (A & B & C). split; [|split]; apply near_micro_scale; assumption. Qed.
Lemma scale_one : exists w, float_of (strip (nl (lit "   1.00000000000000"))) = Some w /\ (w == 1)%Q.
Proof. eexists. split; [reflexivity|]. reflexivity. Qed.

Lemma read_header root total_only g rest dl t :
  (let '(a, b, c) := v_matrix g in all3 (small 3) a /\ all3 (small 3) b /\ all3 (small 3) c) ->
  Forall (fun x => (word (fst x) /\ (length (fst x) <= 4)%nat) /\ all3 (small 1) (snd x)) (v_sites g) -> Z.of_nat (length (v_sites g)) < 100000 ->
  readline rest = (dl, t) ->
  exists m sites, same_file g (VGrid m sites [] []) /\ read_vasp root total_only (header false (v_matrix g) (v_sites g) ++ rest) = obnd (read_data root total_only dl t) (fun '(data, aug) => Some (VGrid m sites data aug)).
Proof.
  intros M S C R. destruct g as [[[a b] c] sites data aug]. cbn [v_matrix v_sites] in *. destruct M as (A & B & D). unfold header. cbv zeta beta iota. rewrite <- !app_assoc. unfold read_vasp.
  rewrite readline_nl by (intros I; cbn in I; intuition discriminate). rewrite readline_nl by (intros I; cbn in I; intuition discriminate). destruct scale_one as (w & W & W1). rewrite W. cbn [obnd].
  assert (SP : forall v, ~ In newline (space :: row_text 12 v)) by (intros v [I|I]; [discriminate|now apply row_no_newline in I]). rewrite !readline_nl by apply SP.
  destruct (vec_line_spec a A) as (a' & EA & RA). destruct (vec_line_spec b B) as (b' & EB & RB). destruct (vec_line_spec c D) as (c' & EC & RC). rewrite EA. cbn [obnd]. rewrite EB. cbn [obnd]. rewrite EC. cbn [obnd].
  destruct (runs_expand (map fst sites)) as [RE RF]. set (rs := runs (map fst sites)) in *.
  assert (SY : Forall (fun x : text => word x /\ (length x <= 4)%nat) (map fst rs)).
  { apply Forall_map, Forall_forall. intros [s n] I. rewrite Forall_forall in RF. apply RF in I as [_ I]. apply in_map_iff in I as (x & <- & X). rewrite Forall_forall in S. now apply S. }
  assert (E1 : List.concat (map (fun '(s, _) => pad_right 5 s) rs) = List.concat (map (pad_right 5) (map fst rs))) by (rewrite map_map; f_equal; apply map_ext; intros [s n]; reflexivity). rewrite E1.
  rewrite readline_nl.
  2:{ apply concat_no_newline. intros s I. rewrite Forall_forall in SY. destruct (SY s I) as [[_ F] _]. unfold pad_right. intros X. apply in_app_iff in X as [X|X]; [now apply no_space_no_newline in X|apply repeat_spec in X; discriminate]. }
  assert (E2 : List.concat (map (fun '(_, n) => fmt_int 6 n) rs) = List.concat (map (fmt_int 6) (map snd rs))) by (rewrite map_map; f_equal; apply map_ext; intros [s n]; reflexivity). rewrite E2.
  rewrite readline_nl by (apply concat_no_newline; intros n _; apply fmt_int_no_newline). assert (T1 : split (nl (List.concat (map (pad_right 5) (map fst rs)))) = map fst rs) by (apply split_padded; [exact SY|exact nl_blank]).
  assert (T2 : ints_of (nl (List.concat (map (fmt_int 6) (map snd rs)))) = Some (map snd rs)).
  { apply ints_spec; [lia| |exact nl_blank]. apply Forall_map, Forall_forall. intros [s n] I. assert (RF' := RF). rewrite Forall_forall in RF'. apply RF' in I as J. destruct J as [N _]. cbn [snd]. split; [lia|]. eapply Z.le_lt_trans; [|exact C]. apply in_split in I as (p & q & I). rewrite <- (map_length fst sites), <- RE, I, map_app, concat_app, app_length. cbn [map List.concat]. rewrite app_length, repeat_length. lia. }
  rewrite T1, T2. cbn [obnd]. rewrite readline_nl by (intros I; cbn in I; intuition discriminate). assert (RS := runs_sum (map fst sites)). fold rs in RS. rewrite RS, Nat2Z.id, map_length.
  destruct (coord_lines_spec (nl [space] ++ rest) sites) as (vs & EV & RV); [eapply Forall_impl; [|exact S]; intros x [_ X]; exact X|]. rewrite EV. cbn [obnd]. rewrite readline_nl by (intros I; cbn in I; intuition discriminate). rewrite R.
  rewrite (combine_fst_snd rs). rewrite RE. assert (LV := Forall2_len _ _ _ RV). rewrite map_length, LV, Nat.eqb_refl.
  exists (scale_mat w (a', b', c')), (combine (map fst sites) vs). split; [|reflexivity]. split.
  - cbn [v_matrix scale_mat]. repeat split; apply rel3_scale; assumption.
  - cbn [v_sites]. clear - RV. induction RV as [|[s x] v l vs R F IH]; [constructor|]. cbn. constructor; [auto|exact IH].
Qed.

Definition aug_of (g : vgrid) (k : key) : text := match lookup k (v_aug g) with Some a => aug_text a | None => [] end.
Lemma aug_of_lines s g k : storable s g -> exists ls, aug_of g k = List.concat ls /\ Forall (good_line (nl (dims_text s))) ls.
Proof.
  intros ST. unfold aug_of. destruct (lookup k (v_aug g)) as [a|] eqn:E; [|exists []; split; [reflexivity|constructor]]. apply good_aug_lines. destruct a as [t|ls]; cbn [aug_items].
  - intros l I. apply in_map_iff in I as (c & <- & _). destruct (ascii_dec c newline) as [->|N].
    + exists []. split; [right; reflexivity|]. split; [intros []|]. intros Q. apply (f_equal solid) in Q. rewrite !solid_strip in Q. apply (f_equal (@length ascii)) in Q. change (length (solid (nl []))) with 0%nat in Q. destruct s as [[nx ny] nz]. unfold nl, dims_text in Q. rewrite !solid_app, !app_length in Q. pose proof (solid_int 6 nx). lia.
    + exists [c]. split; [left; reflexivity|]. split; [intros [X|[]]; congruence|apply char_not_dims].
  - intros l I. pose proof (st_aug _ _ ST k ls E) as F. rewrite Forall_forall in F. exact (F l I).
Qed.
Lemma sets_text nx ny nz g t : storable (nx, ny, nz) g -> lookup Total (v_data g) = Some t ->
  exists lt rest, aug_of g Total = List.concat lt /\ Forall (good_line (nl (dims_text (nx, ny, nz)))) lt /\
    List.concat (map (write_set g) [Total; Diff; DiffX; DiffY; DiffZ]) = nl (dims_text (nx, ny, nz)) ++ block (fst (set_of t lt)) ++ List.concat (snd (set_of t lt)) ++ after (nl (dims_text (nx, ny, nz))) rest /\
    match lookup Diff (v_data g) with
    | None => rest = []
    | Some d => exists ld, rest = [set_of d ld] /\ aug_of g Diff = List.concat ld /\ Forall (good_line (nl (dims_text (nx, ny, nz)))) ld
    end.
Proof.
  intros ST T. assert (NO : forall k, k = DiffX \/ k = DiffY \/ k = DiffZ -> write_set g k = []).
  { intros k K. unfold write_set. destruct (lookup k (v_data g)) as [a|] eqn:E; [|reflexivity]. apply (st_data _ _ ST) in E as [[E|E] _]; subst k; intuition discriminate. }
  assert (WR : forall k a, lookup k (v_data g) = Some a -> write_set g k = nl (dims_text (nx, ny, nz)) ++ block (map pair_of (ravel a)) ++ aug_of g k).
  { intros k a E. unfold write_set. rewrite E. destruct (st_data _ _ ST k a E) as [_ [S _]]. rewrite S, write_data_block. reflexivity. }
  destruct (aug_of_lines _ g Total ST) as (lt & ET & FT). exists lt. cbn [map List.concat]. rewrite (NO DiffX), (NO DiffY), (NO DiffZ) by auto. rewrite !app_nil_r. rewrite (WR Total t T). destruct (lookup Diff (v_data g)) as [d|] eqn:D.
  - destruct (aug_of_lines _ g Diff ST) as (ld & ED & FD). exists [set_of d ld]. split; [exact ET|]. split; [exact FT|]. split; [|exists ld; auto]. rewrite (WR Diff d D). cbn [after set_of fst snd]. rewrite ET, ED, app_nil_r, <- !app_assoc. reflexivity.
  - exists []. split; [exact ET|]. split; [exact FT|]. split; [|reflexivity]. unfold write_set at 1. rewrite D. cbn [after set_of fst snd]. rewrite ET. rewrite !app_nil_r. reflexivity.
Qed.

Lemma read_sets root total_only nx ny nz t lt rest : 1 <= nx < 100000 -> 1 <= ny < 100000 -> 1 <= nz < 100000 ->
  let dims := nl (dims_text (nx, ny, nz)) in let n := Z.to_nat (nx * ny * nz) in
  good_set dims n (set_of t lt) -> Forall (good_set dims n) rest ->
  exists rs, read_data root total_only dims (block (fst (set_of t lt)) ++ List.concat (snd (set_of t lt)) ++ after dims rest) = sets root (nx, ny, nz) rs /\
    Forall2 got rs (if total_only then [set_of t lt] else set_of t lt :: rest).
Proof.
  intros X Y Z0 dims n GS FR. assert (N1 : (1 <= n)%nat) by (unfold n; assert (0 < nx * ny * nz) by nia; lia). unfold read_data. fold dims. unfold dims at 1. rewrite dims_ints by assumption. cbn [obnd]. replace ((1 <=? nx) && (1 <=? ny) && (1 <=? nz)) with true by lia. fold n.
  assert (GS' := GS). destruct GS' as (LS & OS & _). set (s := set_of t lt) in *. set (R := List.concat (snd s) ++ after dims rest).
  assert (NE : fst s <> []) by (intros C; rewrite C in LS; cbn in LS; lia). pose proof (window (fst s) R NE OS) as W. rewrite LS in W. rewrite W. cbn [obnd]. rewrite (block_length (length (fst s)) (fst s) (le_n _) OS), LS.
  assert (FU : (length rest + 1 < S (length (block (fst s) ++ R)))%nat).
  { assert (H : (length rest <= length (after dims rest))%nat). { clear. induction rest as [|s' rest IH]; [cbn; lia|]. cbn [after length]. rewrite !app_length. assert (1 <= length dims)%nat by (unfold dims, nl; rewrite app_length; cbn; lia). lia. }
    unfold R. rewrite !app_length. rewrite (block_length (length (fst s)) (fst s) (le_n _) OS), LS. lia. }
  destruct total_only.
  - destruct (blocks_total (dims_text (nx, ny, nz)) n (dims_no_newline _) N1 rest s (S (length (block (fst s) ++ R))) GS FR ltac:(lia)) as (r & E & G). fold dims in E. unfold R in *. rewrite E. cbn [obnd]. exists [r]. split; [reflexivity|]. constructor; [exact G|constructor].
  - destruct (blocks_spec (dims_text (nx, ny, nz)) n (dims_no_newline _) N1 rest s [] (S (length (block (fst s) ++ R))) GS FR FU) as (rs & E & G). fold dims in E. unfold R in *. rewrite E. cbn [obnd app]. exists rs. split; [reflexivity|exact G].
Qed.

(** C28: writing a grid with the total, or the total and the difference, and reading it back gives the same
    structure to six decimals, and every value, at its place, to eleven digits; nothing is lost or added. *)
Theorem C28_roundtrip root s g : storable s g -> exists g', read_vasp root false (write_vasp false g) = Some g' /\ same_file g g' /\
  (forall k, match lookup k (v_data g) with
             | None => lookup k (v_data g') = None
             | Some a => exists b, lookup k (v_data g') = Some b /\ arr_near a b /\ lookup k (v_aug g') = Some (AugText (aug_of g k))
             end).
Proof.
  intros ST. destruct s as [[nx ny] nz]. assert (D := st_dims _ _ ST). cbn in D. destruct D as (X & Y & Z0). destruct (lookup Total (v_data g)) as [t|] eqn:T; [|exfalso; apply (st_total _ _ ST T)].
  destruct (sets_text nx ny nz g t ST T) as (lt & rest & ET & FT & EW & RD). unfold write_vasp.
  assert (RL : readline (List.concat (map (write_set g) [Total; Diff; DiffX; DiffY; DiffZ])) = (nl (dims_text (nx, ny, nz)), block (fst (set_of t lt)) ++ List.concat (snd (set_of t lt)) ++ after (nl (dims_text (nx, ny, nz))) rest)) by (rewrite EW; apply readline_nl, dims_no_newline).
  destruct (read_header root false g _ _ _ (st_matrix _ _ ST) (st_sites _ _ ST) (st_count _ _ ST) RL) as (m & sites & SF & ER). rewrite ER. destruct (st_data _ _ ST Total t T) as [_ GT].
  assert (GS := good_set_of nx ny nz t lt ltac:(lia) ltac:(lia) ltac:(lia) GT FT).
  assert (FR : Forall (good_set (nl (dims_text (nx, ny, nz))) (Z.to_nat (nx * ny * nz))) rest).
  { destruct (lookup Diff (v_data g)) as [d|] eqn:Df; [|subst rest; constructor]. destruct RD as (ld & -> & _ & FD). constructor; [|constructor]. destruct (st_data _ _ ST Diff d Df) as [_ GD]. apply good_set_of; auto; lia. }
  destruct (read_sets root false nx ny nz t lt rest X Y Z0 GS FR) as (rs & E & G). rewrite E. inversion G as [|r s0 rs' r' GR GR' E1 E2]; subst. destruct (reshape_near nx ny nz t lt r ltac:(lia) ltac:(lia) ltac:(lia) GT GR) as [NT AT].
  destruct (lookup Diff (v_data g)) as [d|] eqn:Df.
  - destruct RD as (ld & -> & ED & FD). inversion GR' as [|r2 s2 rs2 r2' GR2 GR2' E1 E2]; subst. inversion GR2'; subst. destruct (st_data _ _ ST Diff d Df) as [_ GD]. destruct (reshape_near nx ny nz d ld r2 ltac:(lia) ltac:(lia) ltac:(lia) GD GR2) as [ND AD].
    destruct r as [vt at_], r2 as [vd ad]. cbn [sets obnd fst snd] in *. eexists. split; [reflexivity|]. split; [exact SF|]. cbn [v_data v_aug]. intros k. destruct (lookup k (v_data g)) as [a|] eqn:K.
    + destruct (st_data _ _ ST k a K) as [[-> | ->] _].
      * rewrite T in K. injection K as <-. eexists. split; [reflexivity|]. split; [exact NT|]. cbn [lookup key_eqb]. now rewrite AT, ET.
      * rewrite Df in K. injection K as <-. eexists. split; [reflexivity|]. split; [exact ND|]. cbn [lookup key_eqb]. now rewrite AD, ED.
    + destruct k; try reflexivity; congruence.
  - subst rest. inversion GR'; subst. destruct r as [vt at_]. cbn [sets obnd fst snd] in *. eexists. split; [reflexivity|]. split; [exact SF|]. cbn [v_data v_aug]. intros k. destruct (lookup k (v_data g)) as [a|] eqn:K.
    + destruct (st_data _ _ ST k a K) as [[-> | ->] _]; [|congruence]. rewrite T in K. injection K as <-. eexists. split; [reflexivity|]. split; [exact NT|]. cbn [lookup key_eqb]. now rewrite AT, ET.
    + destruct k; try reflexivity; congruence.
Qed.

(** With [total_only] exactly the total is read. *)
Theorem C28_total root s g : storable s g -> exists g' t b, read_vasp root true (write_vasp false g) = Some g' /\ same_file g g' /\ lookup Total (v_data g) = Some t /\ v_data g' = [(Total, b)] /\ arr_near t b.
Proof.
  intros ST. destruct s as [[nx ny] nz]. assert (D := st_dims _ _ ST). cbn in D. destruct D as (X & Y & Z0). destruct (lookup Total (v_data g)) as [t|] eqn:T; [|exfalso; apply (st_total _ _ ST T)].
  destruct (sets_text nx ny nz g t ST T) as (lt & rest & ET & FT & EW & RD). unfold write_vasp.
  assert (RL : readline (List.concat (map (write_set g) [Total; Diff; DiffX; DiffY; DiffZ])) = (nl (dims_text (nx, ny, nz)), block (fst (set_of t lt)) ++ List.concat (snd (set_of t lt)) ++ after (nl (dims_text (nx, ny, nz))) rest)) by (rewrite EW; apply readline_nl, dims_no_newline).
  destruct (read_header root true g _ _ _ (st_matrix _ _ ST) (st_sites _ _ ST) (st_count _ _ ST) RL) as (m & sites & SF & ER). rewrite ER. destruct (st_data _ _ ST Total t T) as [_ GT].
  assert (GS := good_set_of nx ny nz t lt ltac:(lia) ltac:(lia) ltac:(lia) GT FT).
  assert (FR : Forall (good_set (nl (dims_text (nx, ny, nz))) (Z.to_nat (nx * ny * nz))) rest).
  { destruct (lookup Diff (v_data g)) as [d|] eqn:Df; [|subst rest; constructor]. destruct RD as (ld & -> & _ & FD). constructor; [|constructor]. destruct (st_data _ _ ST Diff d Df) as [_ GD]. apply good_set_of; auto; lia. }
  destruct (read_sets root true nx ny nz t lt rest X Y Z0 GS FR) as (rs & E & G). rewrite E. inversion G as [|r s0 rs' r' GR GR' E1 E2]; subst. inversion GR'; subst. destruct (reshape_near nx ny nz t lt r ltac:(lia) ltac:(lia) ltac:(lia) GT GR) as [NT AT].
  destruct r as [vt at_]. cbn [sets obnd fst snd] in *. eexists _, t, _. split; [reflexivity|]. split; [exact SF|]. split; [reflexivity|]. split; [reflexivity|exact NT].
Qed.

(** A value of at most eleven digits is read back exactly. *)
Theorem C28_exact q v m k : Z.abs m < 100000000000 -> (q == inject_Z m * pow10 k)%Q -> near11 q v -> (v == q)%Q.
Proof. apply near11_exact. Qed.

(** C29: the field of a value is a blank and seventeen characters without white space, and denotes the value to eleven digits. *)
Theorem C29_field q r : fits q -> (match r with [] => True | c :: _ => is_digit c = false end) ->
  exists b v, format_fortran (fortran_mant q) (fortran_exp q) = space :: b /\ length b = 17%nat /\ (forall c, In c b -> is_space c = false) /\
    parse_float (b ++ r) = Some (v, r) /\ near11 q v.
Proof.
  intros F R. pose proof (fits_pair q F) as O. exists (body (fortran_mant q) (fortran_exp q)). destruct (field_parse (pair_of q) r O) as (v & E & V); [destruct r; exact R|]. exists v.
  split; [apply field_body|]. destruct O as [M X]. cbn [pair_of fst snd] in *. destruct (body_word _ (fortran_exp q) M) as [[_ W] L]. split; [now apply L|]. split; [now apply Forall_forall|]. split; [exact E|]. now apply value_near.
Qed.

(** ** What goes wrong *)
Definition unit_mat : mat := ((1, 0, 0), (0, 1, 0), (0, 0, 1))%Q.
Definition row_grid (n : Z) (f : Z -> Q) : arr := Arr (n, 1, 1) (fun i _ _ => f i).
Definition one_atom : list (text * vec) := [(lit "Li", (0, 0, 1 # 2)%Q)].

(** C93: a value so close to a power of ten that its mantissa rounds up is written as a tenth of it. *)
Theorem C93_carry_refuted : exists q v, (99 # 100 < q < 1)%Q /\ split (format_fortran (fortran_mant q) (fortran_exp q)) = [lit "0.100000000000E+00"] /\
  float_of (lit "0.100000000000E+00") = Some v /\ (v == 1 # 10)%Q.
Proof. exists (999999999999 # 1000000000000)%Q. eexists. split; [split; reflexivity|]. split; [vm_compute; reflexivity|]. split; [vm_compute; reflexivity|]. reflexivity. Qed.

(** C94: one value with a three-digit exponent makes the file unreadable: the block is taken to end after the end of
    the file. *)
Definition tiny_grid : vgrid := VGrid unit_mat one_atom [(Total, row_grid 6 (fun i => if i =? 0 then (1 # (10 ^ 120))%Q else 1%Q))] [].
Theorem C94_width_refuted root : exists g a, lookup Total (v_data g) = Some a /\ (0 < a_at a 0 0 0)%Q /\ length (format_fortran (fortran_mant (a_at a 0 0 0)) (fortran_exp (a_at a 0 0 0))) = 19%nat /\
  read_vasp root false (write_vasp false g) = None.
Proof. exists tiny_grid. eexists. split; [reflexivity|]. split; [reflexivity|]. split; vm_compute; reflexivity. Qed.

(** C95: augmentation text read from a file is written back with every character on a line of its own. *)
Theorem C95_augmentation_refuted root : exists g t g', storable (2, 1, 1) g /\ lookup Total (v_aug g) = Some (AugText t) /\ read_vasp root false (write_vasp false g) = Some g' /\ lookup Total (v_aug g') <> Some (AugText t).
Proof.
  set (g := VGrid unit_mat one_atom [(Total, row_grid 2 (fun i => inject_Z i))] [(Total, AugText (nl (lit "ab")))]).
  assert (ST : storable (2, 1, 1) g).
  { split; cbn [v_matrix v_sites v_data v_aug g unit_mat one_atom].
    - cbn. repeat split; apply Qle_bool_iff || (unfold small; cbn); try reflexivity; try discriminate.
    - constructor; [|constructor]. split; [split; [|cbn; lia]|]. + split; [discriminate|]. repeat constructor. + cbn. repeat split; reflexivity.
    - cbn. lia.
    - lia.
    - discriminate.
    - intros k a. cbn. destruct k; cbn; try discriminate. intros E. injection E as <-. split; [auto|]. split; [reflexivity|]. intros i j k I _ _. cbn [row_grid a_at]. assert (C : i = 0 \/ i = 1) by lia. destruct C; subst i; [left; reflexivity|]. right. exists 1. split; [lia|]. split; [split; vm_compute; congruence|reflexivity].
    - intros k ls. cbn. destruct k; discriminate. }
  destruct (C28_roundtrip root _ g ST) as (g' & E & _ & D). exists g, (nl (lit "ab")), g'. split; [exact ST|]. split; [reflexivity|]. split; [exact E|]. specialize (D Total). cbn [lookup key_eqb g v_data] in D. destruct D as (b & _ & _ & A). rewrite A. vm_compute. discriminate.
Qed.

(** C96: the five arrays of a non-collinear calculation are written, but then only the total is read back. *)
Definition spin_grid : vgrid := VGrid unit_mat one_atom (map (fun k => (k, row_grid 2 (fun i => inject_Z i))) [Total; DiffX; DiffY; DiffZ; Diff]) [].
Theorem C96_noncollinear_refuted root : exists g g', (forall k, exists a, lookup k (v_data g) = Some a /\ good_arr (2, 1, 1) a) /\ read_vasp root false (write_vasp false g) = Some g' /\ forall k, k <> Total -> lookup k (v_data g') = None.
Proof.
  exists spin_grid. eexists. split.
  - intros k. exists (row_grid 2 (fun i => inject_Z i)). split; [destruct k; reflexivity|]. split; [reflexivity|]. intros i j k' I _ _. cbn [row_grid a_at]. assert (C : i = 0 \/ i = 1) by lia. destruct C; subst i; [left; reflexivity|]. right. exists 1. split; [lia|]. split; [split; vm_compute; congruence|reflexivity].
  - split; [vm_compute; reflexivity|]. intros k K. destruct k; congruence || reflexivity.
Qed.

(** C97: with [vasp4_compatible] the line of symbols is left out, and [read_vasp] cannot read the file. *)
Theorem C97_vasp4_refuted root : exists g, (exists g', read_vasp root false (write_vasp false g) = Some g') /\ read_vasp root false (write_vasp true g) = None.
Proof. exists (VGrid unit_mat one_atom [(Total, row_grid 2 (fun i => inject_Z i))] []). split; [eexists|]; vm_compute; reflexivity. Qed.

(** C98: without its last newline a file with more than one row of values starts the debugger. *)
Theorem C98_newline_refuted root : exists f, (exists g, read_vasp root false (nl f) = Some g) /\ read_vasp root false f = None.
Proof. exists (removelast (write_vasp false (VGrid unit_mat one_atom [(Total, row_grid 6 (fun i => inject_Z i))] []))). split; [eexists|]; vm_compute; reflexivity. Qed.

(** C99: the kind of coordinates is ignored, and a negative scale is a factor, not a volume. *)
Definition head_of (scale : text) : text := nl (lit "file") ++ nl scale ++ nl (lit "1 0 0") ++ nl (lit "0 1 0") ++ nl (lit "0 0 1") ++ nl (lit "Li") ++ nl (lit "1").
Definition tail_of : text := nl (lit "1 1 0") ++ nl [] ++ nl (lit "1 1 2") ++ nl (lit " 1.0 2.0").
Theorem C99_cartesian_refuted root : exists f g, f (lit "Direct") <> f (lit "Cartesian") /\ (forall kind, f kind = head_of (lit "2.0") ++ nl kind ++ tail_of) /\
  read_vasp root false (f (lit "Direct")) = Some g /\ read_vasp root false (f (lit "Cartesian")) = Some g /\ exists x, map snd (v_sites g) = [x] /\ rel3 Qeq x (1, 1, 0)%Q.
Proof. exists (fun kind => head_of (lit "2.0") ++ nl kind ++ tail_of). eexists. split; [vm_compute; discriminate|]. split; [reflexivity|]. split; [vm_compute; reflexivity|]. split; [vm_compute; reflexivity|]. eexists. split; [reflexivity|]. cbn. repeat split; reflexivity. Qed.
Theorem C99_volume_refuted root : exists g x y z, read_vasp root false (head_of (lit "-8.0") ++ nl (lit "Direct") ++ tail_of) = Some g /\ v_matrix g = (x, y, z) /\ rel3 Qeq x (-(8), 0, 0)%Q.
Proof. eexists _, _, _, _. split; [vm_compute; reflexivity|]. split; [reflexivity|]. cbn. repeat split; reflexivity. Qed.

(** ** Examples *)
Fixpoint lines_f (fuel : nat) (t : text) : list string :=
  match fuel, readline t with S f, ((_ :: _) as l, r) => string_of_list_ascii (removelast l) :: lines_f f r | _, _ => [] end.
Definition lines_text (t : text) : list string := lines_f (length t) t.
(** The file of a two by one by two grid. *)
Definition small_grid : vgrid := VGrid unit_mat one_atom [(Total, Arr (2, 1, 2) (fun i _ k => inject_Z (i + 10 * k)))] [(Total, AugLines [lit "augmentation"])].
Example ex_file : lines_text (write_vasp false small_grid) =
  ["Written by BaderKit"; "   1.00000000000000"; "     1.000000    0.000000    0.000000"; "     0.000000    1.000000    0.000000"; "     0.000000    0.000000    1.000000"; "Li   "; "     1"; "Direct"; "  0.000000  0.000000  0.500000"; " ";
   "     2     1     2"; " 0.00000000000E+00 0.10000000000E+01 0.10000000000E+02 0.11000000000E+02"; "augmentation"]%string.
Proof. vm_compute. reflexivity. Qed.
Example ex_read : option_map (fun g => match lookup Total (v_data g) with Some a => map (fun '(i, j, k) => Qred (a_at a i j k)) (voxels 2 1 2) | None => [] end) (read_vasp (fun q => q) false (write_vasp false small_grid)) = Some [0; 10; 1; 11]%Q.
Proof. vm_compute. reflexivity. Qed.
Example ex_field : string_of_list_ascii (format_fortran (fortran_mant (-(1) # 3)) (fortran_exp (-(1) # 3))) = " -.33333333333E+00"%string.
Proof. vm_compute. reflexivity. Qed.
Example ex_fits : fits (-(1) # 3).
Proof. right. exists 0. split; [lia|]. split; [split; vm_compute; congruence|reflexivity]. Qed.

Print Assumptions C28_roundtrip.
Print Assumptions C28_total.
Print Assumptions C28_exact.
Print Assumptions C29_field.
Print Assumptions C93_carry_refuted.
Print Assumptions C94_width_refuted.
Print Assumptions C95_augmentation_refuted.
Print Assumptions C96_noncollinear_refuted.
Print Assumptions C97_vasp4_refuted.
Print Assumptions C98_newline_refuted.
Print Assumptions C99_cartesian_refuted.
Print Assumptions C99_volume_refuted.
