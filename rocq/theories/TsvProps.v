(** C215-C217: the tables of atoms and basins. *)
From Coq Require Import Ascii String QArith Qround Qabs Lqa Lia.
From Verif Require Import Base ChargeModel NearModel TextModel TextProofs FmtProofs GobjModel VaspModel VaspProofs VaspTop TsvModel.
Local Open Scope Z_scope.
Local Notation length := List.length.

(** ** Reading a table *)
(** [str.split(c)]. *)
Fixpoint splits (c : ascii) (t : text) : list text :=
  match t with
  | [] => [[]]
  | x :: t => if ascii_dec x c then [] :: splits c t else match splits c t with w :: r => (x :: w) :: r | [] => [[x]] end
  end.
Inductive entry := AsText (t : text) | AsNumber (q : Q).
Definition shows (cell : text) (e : entry) : Prop :=
  match e with
  | AsText t => strip cell = t
  | AsNumber q => exists v, float_of (strip cell) = Some v /\ (Qabs (v - q) <= 1 # 200000)%Q
  end.
(** A header and rows with cells of the same widths, one row for each list of entries. *)
Definition table (names : list text) (entries : list (list entry)) (t : text) : Prop :=
  exists header rows, t = List.concat (map nl (header :: rows)) /\ (forall r, In r (header :: rows) -> ~ In newline r) /\
    map strip (splits tab header) = names /\
    Forall2 (fun r es => Forall2 shows (splits tab r) es /\ map (@length _) (splits tab r) = map (@length _) (splits tab header)) rows entries.
(** A label that can be told from the layout. *)
Definition clean (t : text) : Prop := ~ In tab t /\ ~ In newline t /\ strip t = t.

(** ** Numbers *)
Lemma fixed5_nonneg q : 0 <= fixed5 q.
Proof. unfold fixed5. pose proof (round_near (Qabs q * inject_Z 100000)) as R. apply Qabs_Qle_condition in R as [R1 R2]. pose proof (Qabs_nonneg q). change (inject_Z 100000) with 100000%Q in *. assert (L : (inject_Z (-1) < inject_Z (py_round (Qabs q * 100000)))%Q) by (change (inject_Z (-1)) with (-(1))%Q; lra). rewrite <- Zlt_Qlt in L. lia. Qed.
Lemma f5_parse q : exists v, float_of (fmt_f5 q) = Some v /\ (Qabs (v - q) <= 1 # 200000)%Q.
Proof.
  pose proof (fixed5_nonneg q) as P. set (n := fixed5 q) in *. assert (M := Z.mod_pos_bound n 100000 ltac:(lia)). assert (D := Z.div_mod n 100000 ltac:(lia)).
  assert (D0 : 0 <= n / 100000) by (apply Z.div_pos; lia). destruct (zeros_spec 5 (n mod 100000) ltac:(cbn; lia) ltac:(lia)) as (Z1 & Z2 & Z3).
  set (neg := negb (Qle_bool 0 q)). unfold float_of. replace (fmt_f5 q) with (sgn_text neg ++ dec (n / 100000) ++ "."%char :: zeros 5 (dec (n mod 100000)) ++ [] ++ []) by (unfold fmt_f5; fold n; unfold neg; rewrite !app_nil_r; now destruct (Qle_bool 0 q)).
  rewrite (parse_spec neg (dec (n / 100000)) (zeros 5 (dec (n mod 100000))) [] [] 0); [|now apply dec_digits|exact Z2|intros C; apply app_eq_nil in C as [C _]; now apply (dec_not_nil _ D0)|exact I|apply exponent_none; exact I].
  eexists. split; [reflexivity|]. rewrite Z3. rewrite number_app, Z1, Z3, dec_number by exact D0. change (10 ^ Z.of_nat 5) with 100000. replace (n / 100000 * 100000 + n mod 100000) with n by lia.
  change (pow10 (0 - Z.of_nat 5)) with (1 # 100000)%Q.
  assert (R := round_near (Qabs q * inject_Z 100000)). fold (fixed5 q) in R. fold n in R. change (inject_Z 100000) with 100000%Q in R. apply Qabs_Qle_condition in R as [R1 R2]. apply Qabs_Qle_condition.
  unfold neg. destruct (Qle_bool 0 q) eqn:Q; cbn [negb sgn_of].
  - apply Qle_bool_iff in Q. rewrite (Qabs_pos q Q) in R1, R2. rewrite Z.mul_1_l. split; lra.
  - assert (Q' : (q <= 0)%Q) by (apply Qlt_le_weak, Qnot_le_lt; intros L; apply Qle_bool_iff in L; congruence). rewrite (Qabs_neg q Q') in R1, R2. replace (-1 * n) with (- n) by lia. rewrite inject_Z_opp. split; lra.
Qed.
Lemma f5_word q : word (fmt_f5 q).
Proof.
  pose proof (fixed5_nonneg q) as P. assert (M := Z.mod_pos_bound (fixed5 q) 100000 ltac:(lia)). destruct (zeros_spec 5 (fixed5 q mod 100000) ltac:(cbn; lia) ltac:(lia)) as (Z1 & Z2 & Z3). unfold fmt_f5. split.
  - intros C. apply app_eq_nil in C as [_ C]. apply app_eq_nil in C as [_ C]. discriminate.
  - apply Forall_app. split; [destruct (Qle_bool 0 q); repeat constructor|]. apply Forall_app. split; [apply digits_no_space, dec_digits, Z.div_pos; lia|]. constructor; [reflexivity|apply digits_no_space; exact Z2].
Qed.
Lemma word_strip w : word w -> strip w = w.
Proof. intros W. unfold strip. rewrite (drop_word w W). rewrite drop_word; [apply rev_involutive|]. destruct W as [N F]. split; [intros E; apply N; now apply (f_equal (@rev _)) in E; rewrite rev_involutive in E|]. apply Forall_forall. intros c I. apply in_rev in I. rewrite Forall_forall in F. auto. Qed.
Lemma word_clean w : word w -> clean w.
Proof. intros W. pose proof W as [N F]. split; [|split; [now apply no_space_no_newline|now apply word_strip]]. intros I. rewrite Forall_forall in F. apply F in I. discriminate. Qed.

(** ** Layout *)
Lemma splits_word c w t : ~ In c w -> splits c (w ++ t) = match splits c t with x :: r => (w ++ x) :: r | [] => [w] end.
Proof.
  induction w as [|a w IH]; intros N.
  - cbn. destruct t as [|d t]; [reflexivity|]. cbn. destruct (ascii_dec d c); [reflexivity|]. destruct (splits c t); reflexivity.
  - cbn [app splits]. destruct (ascii_dec a c); [exfalso; apply N; now left|]. rewrite IH by (intros X; apply N; now right). now destruct (splits c t).
Qed.
Lemma splits_join c w ws : Forall (fun w => ~ In c w) (w :: ws) -> splits c (join [c] (w :: ws)) = w :: ws.
Proof.
  revert w. induction ws as [|v ws IH]; intros w F.
  - cbn [join]. rewrite <- (app_nil_r w) at 1. rewrite splits_word by (now apply Forall_inv in F). cbn. now rewrite app_nil_r.
  - change (join [c] (w :: v :: ws)) with (w ++ c :: join [c] (v :: ws)). rewrite splits_word by (now apply Forall_inv in F). cbn [splits]. destruct (ascii_dec c c); [|contradiction]. rewrite app_nil_r, IH by (now apply Forall_inv_tail in F). reflexivity.
Qed.
Lemma join_in c x ws : In x (join [c] ws) -> x = c \/ exists w, In w ws /\ In x w.
Proof.
  induction ws as [|w [|v ws] IH]; [contradiction| |].
  - cbn. intros I. right. exists w. auto.
  - change (join [c] (w :: v :: ws)) with (w ++ c :: join [c] (v :: ws)). intros I. apply in_app_iff in I as [I|[I|I]]; [right; exists w; split; [now left|exact I]|auto|]. destruct (IH I) as [E|(u & U & X)]; [auto|]. right. exists u. split; [now right|exact X].
Qed.
Lemma drop_space_spaces k : drop_space (repeat space k) = [].
Proof. rewrite <- (app_nil_r (repeat space k)). apply drop_space_app; [apply spaces_ok|exact I]. Qed.
Lemma strip_pad w t : strip t = t -> strip (pad_right w t) = t.
Proof.
  intros S. unfold pad_right. generalize (w - length t)%nat. intros k. rewrite <- S at 2. unfold strip.
  assert (D : drop_space (t ++ repeat space k) = drop_space t ++ (if is_nil (drop_space t) then [] else repeat space k)).
  { clear S. induction t as [|c t IH]; [cbn [app]; rewrite drop_space_spaces; reflexivity|]. unfold drop_space in *. cbn [app span]. destruct (is_space c); [|cbn; reflexivity]. destruct (span is_space (t ++ repeat space k)), (span is_space t). exact IH. }
  rewrite D. destruct (is_nil (drop_space t)) eqn:N; [now rewrite app_nil_r|]. rewrite rev_app_distr. replace (rev (repeat space k)) with (repeat space k).
  - f_equal. clear. induction k as [|k IH]; [reflexivity|]. cbn [repeat app]. unfold drop_space in *. cbn [span]. replace (is_space space) with true by reflexivity. rewrite <- IH. now destruct (span is_space (repeat space k ++ _)).
  - clear. induction k as [|k IH]; [reflexivity|]. cbn [repeat rev]. rewrite <- IH. clear. induction k as [|k IH]; [reflexivity|]. cbn [repeat app]. now rewrite <- IH.
Qed.
Lemma pad_length w t : (length t <= w)%nat -> length (pad_right w t) = w.
Proof. intros L. unfold pad_right. rewrite app_length, repeat_length. lia. Qed.
Lemma pad_not_in w t x : x <> space -> ~ In x t -> ~ In x (pad_right w t).
Proof. intros X N I. unfold pad_right in I. apply in_app_iff in I as [I|I]; [contradiction|]. apply repeat_spec in I. contradiction. Qed.
Lemma width_spec c : (length (fst c) <= width c)%nat /\ forall x, In x (cells (snd c)) -> (length x <= width c)%nat.
Proof.
  unfold width. set (l := map (@length _) (cells (snd c))). assert (H : forall l n, (n <= fold_left Nat.max l n)%nat /\ forall x, In x l -> (x <= fold_left Nat.max l n)%nat).
  { clear. induction l as [|a l IH]; intros n; [split; [cbn; lia|contradiction]|]. cbn [fold_left]. destruct (IH (Nat.max n a)) as [A B]. split; [lia|]. intros x [->|X]; [lia|now apply B]. }
  destruct (H l (length (fst c))) as [A B]. split; [exact A|]. intros x X. apply B. unfold l. now apply in_map.
Qed.
(** One line: the cells are the padded values. *)
Definition padded (f : frame) (vals : list text) : list text := map (fun '(w, v) => pad_right w v) (combine (map width f) vals).
Definition fitting (f : frame) (vals : list text) : Prop := Forall2 (fun c v => (length v <= width c)%nat /\ clean v) f vals.
Lemma fitting_padded f vals : fitting f vals -> map strip (padded f vals) = vals /\ map (@length _) (padded f vals) = map width f /\ Forall (fun p => ~ In tab p /\ ~ In newline p) (padded f vals).
Proof.
  unfold padded. induction 1 as [|c v f vals [L (T & N & S)] F IH]; [cbn; auto|]. cbn [map combine]. destruct IH as (A & B & C). rewrite A, B. split; [now rewrite strip_pad|]. split; [now rewrite pad_length|]. constructor; [|exact C]. split; apply pad_not_in; (discriminate || assumption).
Qed.
Lemma padded_line f vals : f <> [] -> fitting f vals -> let l := join [tab] (padded f vals) in splits tab l = padded f vals /\ ~ In newline l.
Proof.
  intros NE F l. destruct (fitting_padded f vals F) as (_ & LL & C). split.
  - unfold l. destruct (padded f vals) as [|p ps] eqn:E; [destruct f; [contradiction|discriminate]|]. apply splits_join. eapply Forall_impl; [|exact C]. intros x X. apply X.
  - intros I. apply join_in in I as [I|(w & W & I)]; [discriminate|]. rewrite Forall_forall in C. now apply (C w W).
Qed.
Definition entry_at (c : column) (i : nat) : entry := match c with Texts l => AsText (nth i l []) | Numbers l => AsNumber (nth i l 0%Q) end.
Definition clean_col (n : nat) (c : text * column) : Prop := clean (fst c) /\ col_len (snd c) = n /\ match snd c with Texts l => Forall clean l | Numbers _ => True end.
Lemma cell_at n c i : clean_col n c -> (i < n)%nat -> let v := nth i (cells (snd c)) [] in (length v <= width c)%nat /\ clean v /\ forall p, strip p = v -> shows p (entry_at (snd c) i).
Proof.
  intros (_ & L & K) I v. assert (IN : In v (cells (snd c))) by (apply nth_In; destruct c as [nm [l|l]]; cbn in *; rewrite ?map_length; lia). split; [now apply width_spec|]. destruct c as [nm [l|l]]; cbn [snd cells col_len entry_at shows] in *.
  - split; [rewrite Forall_forall in K; now apply K|]. intros p E. exact E.
  - assert (E : v = fmt_f5 (nth i l 0%Q)) by (unfold v; rewrite nth_indep with (d' := fmt_f5 0%Q) by (rewrite map_length; lia); apply map_nth). fold v. rewrite E. split; [apply word_clean, f5_word|]. intros p ->. apply f5_parse.
Qed.
Lemma tsv_table f n : f <> [] -> Forall (clean_col n) f -> table (map fst f) (map (fun i => map (fun c => entry_at (snd c) i) f) (seq 0 n)) (tsv f).
Proof.
  intros NE F. assert (FR : frame_rows f = n) by (destruct f as [|[nm c] f]; [contradiction|]; apply Forall_inv in F as (_ & L & _); exact L).
  assert (FH : fitting f (map fst f)). { clear - F. induction F as [|c f (C & _) F IH]; [constructor|]. constructor; [split; [exact (proj1 (width_spec c))|exact C]|exact IH]. }
  assert (FI : forall i, (i < n)%nat -> fitting f (row_of f i) /\ forall ps, map strip ps = row_of f i -> Forall2 shows ps (map (fun c => entry_at (snd c) i) f)).
  { intros i I. clear - F I. induction F as [|c f C F IH]; [split; [constructor|]; intros [|] E; [constructor|discriminate]|]. destruct IH as [A B]. destruct (cell_at n c i C I) as (L & K & S). destruct c as [nm c]. cbn [row_of map snd] in *. split; [constructor; [split; [exact L|exact K]|exact A]|].
    intros [|p ps] E; [discriminate|]. cbn [map] in E. injection E as E1 E2. constructor; [now apply S|now apply B]. }
  exists (join [tab] (padded f (map fst f))), (map (fun i => join [tab] (padded f (row_of f i))) (seq 0 n)). split; [|split; [|split]].
  - unfold tsv. rewrite FR. cbn [map List.concat]. f_equal. rewrite map_map. reflexivity.
  - intros r [<-|R]; [now apply padded_line|]. apply in_map_iff in R as (i & <- & I). apply in_seq in I. apply padded_line; [exact NE|]. now apply FI.
  - destruct (padded_line f _ NE FH) as [-> _]. now apply fitting_padded.
  - destruct (padded_line f _ NE FH) as [EH _]. rewrite EH. destruct (fitting_padded f _ FH) as (_ & LH & _). rewrite LH. assert (FI' : forall i, In i (seq 0 n) -> fitting f (row_of f i) /\ forall ps, map strip ps = row_of f i -> Forall2 shows ps (map (fun c => entry_at (snd c) i) f)) by (intros i I; apply in_seq in I; now apply FI). clear - NE FI'.
    induction (seq 0 n) as [|i l IH]; [constructor|]. cbn [map]. constructor; [|apply IH; intros j J; apply FI'; now right]. destruct (FI' i (or_introl eq_refl)) as [A B]. destruct (padded_line f _ NE A) as [-> _]. destruct (fitting_padded f _ A) as (E & L & _). split; [now apply B|exact L].
Qed.

(** ** Tables of results *)
Definition atom_names : list text := map lit ["label"; "x"; "y"; "z"; "charge"; "volume"; "surface_dist"]%string.
Definition atom_entries (labels : list text) (frac : list vec) (charges volumes dists : list Q) : list (list entry) :=
  map (fun '(l, (v, (c, (w, d)))) => [AsText l; AsNumber (vx v); AsNumber (vy v); AsNumber (vz v); AsNumber c; AsNumber w; AsNumber d]) (combine labels (combine frac (combine charges (combine volumes dists)))).
Lemma lit_clean s : (forallb (fun c => negb (is_space c)) (lit s) && negb (is_nil (lit s)))%bool = true -> clean (lit s).
Proof. intros B. apply andb_true_iff in B as [B N]. apply word_clean. split; [intros E; rewrite E in N; discriminate|]. apply Forall_forall. intros c C. rewrite forallb_forall in B. apply B in C. now destruct (is_space c). Qed.
Lemma combine_seq {A} (d : A) : forall (l : list A) k, l = map (fun i => nth (i - k) l d) (seq k (length l)).
Proof.
  induction l as [|a l IH]; intros k; [reflexivity|]. cbn [length seq map]. rewrite Nat.sub_diag. f_equal. rewrite (IH (S k)) at 1. apply map_ext_in. intros i I. apply in_seq in I. replace (i - k)%nat with (S (i - S k)) by lia. reflexivity.
Qed.
Lemma seq_nth {A} (d : A) l n : length l = n -> l = map (fun i => nth i l d) (seq 0 n).
Proof. intros <-. rewrite (combine_seq d l 0) at 1. apply map_ext. intros i. now rewrite Nat.sub_0_r. Qed.
Lemma combine_map {A B I} (f : I -> A) (g : I -> B) l : combine (map f l) (map g l) = map (fun i => (f i, g i)) l.
Proof. induction l as [|i l IH]; [reflexivity|]. cbn. now rewrite IH. Qed.

Ltac columns := repeat (apply Forall_cons; [split; [now apply lit_clean|split; [cbn; now rewrite ?map_length|first [exact I|assumption]]]|]); constructor.
Ltac coords frac := repeat f_equal; match goal with
  | |- nth _ (map vx _) _ = _ => apply (map_nth vx frac (0, 0, 0)%Q)
  | |- nth _ (map vy _) _ = _ => apply (map_nth vy frac (0, 0, 0)%Q)
  | |- nth _ (map vz _) _ = _ => apply (map_nth vz frac (0, 0, 0)%Q)
  end.
(** C215: the table of atoms has the named columns of equal widths and, in the order of the atoms, one row for each with
    its label, position, charge, volume and distance to the surface, to five decimals; then follow the totals. *)
Theorem C215_atoms labels frac charges volumes dists t : let n := length labels in
  length frac = n -> length charges = n -> length volumes = n -> length dists = n -> Forall clean labels ->
  exists out, write_atom_tsv labels frac charges volumes dists t = Some (out ++ atom_footer t) /\ table atom_names (atom_entries labels frac charges volumes dists) out.
Proof.
  intros n L1 L2 L3 L4 CL. unfold write_atom_tsv, atom_frame, data_frame, coord_cols. cbn [app forallb snd col_len]. rewrite !map_length, L1, L2, L3, L4. fold n. rewrite !Nat.eqb_refl. cbn [andb obnd]. eexists. split; [reflexivity|].
  set (f := [(lit "label", Texts labels); (lit "x", Numbers (map vx frac)); (lit "y", Numbers (map vy frac)); (lit "z", Numbers (map vz frac)); (lit "charge", Numbers charges); (lit "volume", Numbers volumes); (lit "surface_dist", Numbers dists)]).
  replace (atom_entries labels frac charges volumes dists) with (map (fun i => map (fun c : text * column => entry_at (snd c) i) f) (seq 0 n)).
  - apply (tsv_table f n ltac:(discriminate)). unfold f. columns.
  - unfold atom_entries. transitivity (map (fun '(l, (v, (c, (w, d)))) => [AsText l; AsNumber (vx v); AsNumber (vy v); AsNumber (vz v); AsNumber c; AsNumber w; AsNumber d]) (combine (map (fun i => nth i labels ([] : text)) (seq 0 n)) (combine (map (fun i => nth i frac (0, 0, 0)%Q) (seq 0 n)) (combine (map (fun i => nth i charges 0%Q) (seq 0 n)) (combine (map (fun i => nth i volumes 0%Q) (seq 0 n)) (map (fun i => nth i dists 0%Q) (seq 0 n))))))).
    + rewrite !combine_map, map_map. apply map_ext. intros i. unfold f. cbn [map entry_at snd]. coords frac.
    + now rewrite <- !seq_nth.
Qed.
Print Assumptions C215_atoms.
(** The totals follow an empty line, each on its line after its name. *)
Definition total_line (name : string) (q : Q) (l : text) : Prop :=
  exists cells, splits tab l = lit name :: cells /\ exists c, last cells [] = c /\ shows c (AsNumber q) /\ Forall (fun x => x = [] \/ x = c) cells.
Lemma f5_not_in q c : is_space c = true -> ~ In c (fmt_f5 q).
Proof. intros C I. destruct (f5_word q) as [_ F]. rewrite Forall_forall in F. apply F in I. congruence. Qed.
Lemma splits_self c w : ~ In c w -> splits c w = [w].
Proof. intros N. rewrite <- (app_nil_r w) at 1. rewrite splits_word by exact N. cbn. now rewrite app_nil_r. Qed.
Lemma total_ok name q pre : (pre = [tab] \/ pre = [tab; tab]) -> existsb (Ascii.eqb tab) (lit name) = false -> existsb (Ascii.eqb newline) (lit name) = false -> total_line name q (lit name ++ pre ++ fmt_f5 q) /\ ~ In newline (lit name ++ pre ++ fmt_f5 q).
Proof.
  intros P M1 M2. assert (NI : forall c, existsb (Ascii.eqb c) (lit name) = false -> ~ In c (lit name)). { intros c E I. assert (X : existsb (Ascii.eqb c) (lit name) = true) by (apply existsb_exists; exists c; split; [exact I|apply Ascii.eqb_refl]). congruence. }
  assert (N1 := NI _ M1). assert (N2 := NI _ M2). split.
  - unfold total_line. rewrite splits_word by exact N1. destruct (f5_parse q) as (v & V & B).
    assert (SH : shows (fmt_f5 q) (AsNumber q)) by (exists v; rewrite word_strip by apply f5_word; auto).
    destruct P as [-> | ->]; cbn [app splits]; destruct (ascii_dec tab tab); try contradiction; rewrite splits_self by (apply f5_not_in; reflexivity); rewrite app_nil_r; eexists; (split; [reflexivity|]); eexists; (split; [reflexivity|]); (split; [exact SH|]); repeat (apply Forall_cons; [cbn; auto|]); apply Forall_nil.
  - intros I. apply in_app_iff in I as [I|I]; [contradiction|]. apply in_app_iff in I as [I|I]; [|now apply f5_not_in in I]. destruct P as [-> | ->]; cbn in I; repeat destruct I as [I|I]; (discriminate || contradiction).
Qed.
Theorem C215_totals t : exists a b c d, atom_footer t = nl [] ++ nl a ++ nl b ++ nl c ++ nl d /\ (forall l, In l [a; b; c; d] -> ~ In newline l) /\
  total_line "Vacuum Charge:" (t_vac_charge t) a /\ total_line "Vacuum Volume:" (t_vac_volume t) b /\ total_line "Total Electrons:" (t_electrons t) c /\ total_line "Total Volume:" (t_volume t) d.
Proof.
  destruct (total_ok "Vacuum Charge:" (t_vac_charge t) [tab; tab] (or_intror eq_refl) eq_refl eq_refl) as [A1 A2].
  destruct (total_ok "Vacuum Volume:" (t_vac_volume t) [tab; tab] (or_intror eq_refl) eq_refl eq_refl) as [B1 B2].
  destruct (total_ok "Total Electrons:" (t_electrons t) [tab] (or_introl eq_refl) eq_refl eq_refl) as [C1 C2].
  destruct (total_ok "Total Volume:" (t_volume t) [tab] (or_introl eq_refl) eq_refl eq_refl) as [D1 D2].
  do 4 eexists. split; [reflexivity|]. split; [intros l [<-|[<-|[<-|[<-|[]]]]]; assumption|]. auto.
Qed.
Print Assumptions C215_totals.
(** Lists of different lengths are not written. *)
Theorem C215_lengths labels frac charges volumes dists t out : write_atom_tsv labels frac charges volumes dists t = Some out ->
  length frac = length labels /\ length charges = length labels /\ length volumes = length labels /\ length dists = length labels.
Proof.
  unfold write_atom_tsv, atom_frame, data_frame, coord_cols. cbn [app forallb snd col_len]. rewrite !map_length. match goal with |- context [if ?b then _ else _] => destruct b eqn:E end; [|discriminate]. intros _.
  rewrite !andb_true_iff, !Nat.eqb_eq in E. tauto.
Qed.
Print Assumptions C215_lengths.

(** C216: the table of basins has a row for each significant basin, in their order, with the label of its atom. *)
Definition basin_names : list text := map lit ["atoms"; "x"; "y"; "z"; "charge"; "volume"; "surface_dist"; "atom_dist"]%string.
Record basin := Basin { b_sig : bool; b_atom : nat; b_frac : vec; b_charge : Q; b_volume : Q; b_surface : Q; b_dist : Q }.
Definition basin_entry (labels : list text) (b : basin) : list entry :=
  [AsText (nth (b_atom b) labels []); AsNumber (vx (b_frac b)); AsNumber (vy (b_frac b)); AsNumber (vz (b_frac b)); AsNumber (b_charge b); AsNumber (b_volume b); AsNumber (b_surface b); AsNumber (b_dist b)].
Lemma select_map {A} (f : basin -> A) bs : select (map b_sig bs) (map f bs) = Some (map f (filter b_sig bs)).
Proof. induction bs as [|b bs IH]; [reflexivity|]. cbn [map select filter]. rewrite IH. cbn [obnd]. now destruct (b_sig b). Qed.
Theorem C216_basins labels bs : Forall clean labels -> (forall b, In b bs -> (b_atom b < length labels)%nat) ->
  exists out, write_basin_tsv labels (map b_sig bs) (map b_frac bs) (map (fun b => Z.of_nat (b_atom b)) bs) (map b_charge bs) (map b_volume bs) (map b_surface bs) (map b_dist bs) = Some out /\
    table basin_names (map (basin_entry labels) (filter b_sig bs)) out.
Proof.
  intros CL R. unfold write_basin_tsv, basin_frame. rewrite !select_map. cbn [obnd]. set (l := filter b_sig bs).
  assert (RL : forall b, In b l -> (b_atom b < length labels)%nat) by (intros b B; apply R; now apply filter_In in B).
  assert (E : map_opt (np_nth labels) (map (fun b => Z.of_nat (b_atom b)) l) = Some (map (fun b => nth (b_atom b) labels []) l)).
  { clear - RL. induction l as [|b l IH]; [reflexivity|]. cbn [map map_opt]. rewrite IH by (intros; apply RL; now right). assert (B := RL b (or_introl eq_refl)). unfold np_nth. replace ((0 <=? Z.of_nat (b_atom b)) && (Z.of_nat (b_atom b) <? Z.of_nat (length labels))) with true by lia. rewrite Nat2Z.id. rewrite (nth_error_nth' labels [] B). reflexivity. }
  unfold text in *. rewrite E. cbn [obnd]. unfold data_frame, coord_cols. cbn [app forallb snd col_len]. rewrite !map_length, !Nat.eqb_refl. cbn [andb obnd]. eexists. split; [reflexivity|].
  match goal with |- table _ _ (tsv ?g) => set (f := g) end.
  assert (CN : Forall clean (map (fun b => nth (b_atom b) labels []) l)). { apply Forall_forall. intros x X. apply in_map_iff in X as (b & <- & B). rewrite Forall_forall in CL. apply CL, nth_In, RL, B. }
  replace (map (basin_entry labels) l) with (map (fun i => map (fun c : text * column => entry_at (snd c) i) f) (seq 0 (length l))).
  - apply (tsv_table f (length l) ltac:(discriminate)). unfold f. columns.
  - set (b0 := Basin true (length labels) (0, 0, 0)%Q 0%Q 0%Q 0%Q 0%Q). transitivity (map (basin_entry labels) (map (fun i => nth i l b0) (seq 0 (length l)))); [|now rewrite <- seq_nth].
    rewrite map_map. apply map_ext. intros i. unfold f. cbn [map entry_at snd]. unfold basin_entry. rewrite !map_map.
    assert (N : nth (length labels) labels ([] : text) = []) by (apply nth_overflow; lia).
    assert (M : forall A (g : basin -> A) d, g b0 = d -> nth i (map g l) d = g (nth i l b0)) by (intros A g d <-; apply map_nth). 
    assert (M0 := M _ (fun b => nth (b_atom b) labels []) [] N). cbn beta in M0. unfold text in *. apply (f_equal (fun x => AsText x)) in M0. f_equal; [exact M0|]. clear M0. rewrite (M _ (fun b => vx (b_frac b)) 0%Q eq_refl), (M _ (fun b => vy (b_frac b)) 0%Q eq_refl), (M _ (fun b => vz (b_frac b)) 0%Q eq_refl), (M _ b_charge 0%Q eq_refl), (M _ b_volume 0%Q eq_refl), (M _ b_surface 0%Q eq_refl), (M _ b_dist 0%Q eq_refl). reflexivity.
Qed.
Print Assumptions C216_basins.

(** C217: the table of BadELF is that of the atoms followed by the number of electrons; for a calculation with spins
    the last column is left out. *)
(** An atom outside the table of labels makes the table of basins fail; a negative one counts from the end. *)
Lemma select_in {A} (l : list A) : forall mask r n a, select mask l = Some r -> nth_error mask n = Some true -> nth_error l n = Some a -> In a r.
Proof.
  induction l as [|b l IH]; intros [|m mask] r n a; cbn [select]; try discriminate; [now destruct n|]. destruct (select mask l) as [q|] eqn:E; [|discriminate]. cbn [obnd]. intros R M L. injection R as <-.
  destruct n as [|n]; cbn in M, L; [injection M as ->; injection L as ->; now left|]. specialize (IH mask q n a E M L). destruct m; [now right|exact IH].
Qed.
Lemma map_opt_none {A B} (f : A -> option B) l a : In a l -> f a = None -> map_opt f l = None.
Proof. induction l as [|b l IH]; [contradiction|]. intros [->|H] E; cbn [map_opt]; [now rewrite E|]. rewrite (IH H E). now destruct (f b). Qed.
Theorem C216_missing labels sig frac atoms charges volumes surface dist n a : nth_error sig n = Some true -> nth_error atoms n = Some a ->
  a < - Z.of_nat (length labels) \/ Z.of_nat (length labels) <= a -> write_basin_tsv labels sig frac atoms charges volumes surface dist = None.
Proof.
  intros S A R. unfold write_basin_tsv, basin_frame. destruct (select sig frac); [|reflexivity]. cbn [obnd]. destruct (select sig atoms) as [r|] eqn:E; [|reflexivity]. cbn [obnd].
  rewrite (map_opt_none (np_nth labels) r a); [reflexivity|exact (select_in atoms sig r n a E S A)|]. unfold np_nth. destruct R; [replace (0 <=? a) with false by lia; replace (- Z.of_nat (length labels) <=? a) with false by lia; reflexivity|].
  replace (a <? Z.of_nat (length labels)) with false by lia. replace (a <? 0) with false by lia. now rewrite !andb_false_r.
Qed.
Lemma select_map_all {A B} (f : A -> B) (l : list A) : forall mask, select mask (map f l) = option_map (map f) (select mask l).
Proof. induction l as [|a l IH]; intros [|m mask]; cbn; try reflexivity. rewrite IH. destruct (select mask l); [|reflexivity]. cbn. now destruct m. Qed.
Lemma select_sub {A} (l : list A) : forall mask r a, select mask l = Some r -> In a r -> In a l.
Proof.
  induction l as [|b l IH]; intros [|m mask] r a; cbn [select]; try discriminate; [intros E; now injection E as <-|]. destruct (select mask l) as [q|] eqn:E; [|discriminate]. cbn [obnd]. intros R I. injection R as <-.
  destruct m; [destruct I as [->|I]; [now left|]|]; right; exact (IH _ _ _ E I).
Qed.
Theorem C216_negative labels sig frac atoms charges volumes surface dist (k : Z -> bool) : (forall a, In a atoms -> 0 <= a < Z.of_nat (length labels)) ->
  write_basin_tsv labels sig frac (map (fun a => if k a then a - Z.of_nat (length labels) else a) atoms) charges volumes surface dist = write_basin_tsv labels sig frac atoms charges volumes surface dist.
Proof.
  intros R. unfold write_basin_tsv, basin_frame. rewrite select_map_all. destruct (select sig atoms) as [r|] eqn:E; [|reflexivity]. cbn [option_map obnd].
  replace (map_opt (np_nth labels) (map (fun a => if k a then a - Z.of_nat (length labels) else a) r)) with (map_opt (np_nth labels) r); [reflexivity|].
  assert (Q : forall a, In a r -> 0 <= a < Z.of_nat (length labels)) by (intros a I; apply R; exact (select_sub _ _ _ _ E I)). clear E R.
  induction r as [|a r IH]; [reflexivity|]. cbn [map map_opt]. rewrite <- IH by (intros b I; apply Q; now right). specialize (Q a (or_introl eq_refl)). replace (np_nth labels (if k a then _ else a)) with (np_nth labels a); [reflexivity|].
  destruct (k a); [|reflexivity]. unfold np_nth. replace (0 <=? a) with true by lia. replace (a <? Z.of_nat (length labels)) with true by lia. replace (0 <=? a - Z.of_nat (length labels)) with false by lia. replace (- Z.of_nat (length labels) <=? a - Z.of_nat (length labels)) with true by lia. replace (a - Z.of_nat (length labels) <? 0) with true by lia. cbn [andb]. f_equal. lia.
Qed.
Print Assumptions C216_missing. Print Assumptions C216_negative.
Theorem C217_table labels frac charges volumes dists e : let n := length labels in
  length frac = n -> length charges = n -> length volumes = n -> length dists = n -> Forall clean labels ->
  exists out total, badelf_tsv labels frac charges volumes (Some dists) e = Some (out ++ nl [] ++ nl total) /\ table atom_names (atom_entries labels frac charges volumes dists) out /\
    ~ In newline total /\ total_line "Total Electrons:" e total.
Proof.
  intros n L1 L2 L3 L4 CL. destruct (C215_atoms labels frac charges volumes dists (Totals 0 0 0 0) L1 L2 L3 L4 CL) as (out & E & T). unfold write_atom_tsv in E. unfold badelf_tsv. destruct (atom_frame labels frac charges volumes (Some dists)) as [f|]; [|discriminate]. cbn [obnd] in *. injection E as E. apply app_inv_tail in E. subst out.
  exists (tsv f), (lit "Total Electrons:" ++ [tab] ++ fmt_f5 e). split; [reflexivity|]. split; [exact T|]. destruct (total_ok "Total Electrons:" e [tab] (or_introl eq_refl) eq_refl eq_refl) as [A B]. auto.
Qed.
Print Assumptions C217_table.
Theorem C217_spin labels frac charges volumes e : let n := length labels in
  length frac = n -> length charges = n -> length volumes = n -> Forall clean labels ->
  exists out total, badelf_tsv labels frac charges volumes None e = Some (out ++ nl [] ++ nl total) /\
    table (removelast atom_names) (map (@removelast _) (atom_entries labels frac charges volumes volumes)) out /\ ~ In newline total /\ total_line "Total Electrons:" e total.
Proof.
  intros n L1 L2 L3 CL. unfold badelf_tsv, atom_frame, data_frame, coord_cols. cbn [app forallb snd col_len]. rewrite !map_length, L1, L2, L3. fold n. rewrite !Nat.eqb_refl. cbn [andb obnd].
  match goal with |- context [tsv ?g] => set (f := g) end. exists (tsv f), (lit "Total Electrons:" ++ [tab] ++ fmt_f5 e). split; [reflexivity|]. split.
  - change (removelast atom_names) with (map fst f). replace (map (@removelast _) (atom_entries labels frac charges volumes volumes)) with (map (fun i => map (fun c : text * column => entry_at (snd c) i) f) (seq 0 n)).
    + apply (tsv_table f n ltac:(discriminate)). unfold f. columns.
    + unfold atom_entries. rewrite map_map. transitivity (map (fun '(l, (v, (c, (w, d)))) => [AsText l; AsNumber (vx v); AsNumber (vy v); AsNumber (vz v); AsNumber c; AsNumber w]) (combine (map (fun i => nth i labels ([] : text)) (seq 0 n)) (combine (map (fun i => nth i frac (0, 0, 0)%Q) (seq 0 n)) (combine (map (fun i => nth i charges 0%Q) (seq 0 n)) (combine (map (fun i => nth i volumes 0%Q) (seq 0 n)) (map (fun i => nth i volumes 0%Q) (seq 0 n))))))).
      * rewrite !combine_map, map_map. apply map_ext. intros i. unfold f. cbn [map entry_at snd]. coords frac.
      * rewrite <- !seq_nth by assumption || reflexivity. apply map_ext. intros (l & v & c & w & d). reflexivity.
  -  destruct (total_ok "Total Electrons:" e [tab] (or_introl eq_refl) eq_refl eq_refl) as [A B]. auto.
Qed.
Print Assumptions C217_spin.

(** C218: with [write_spin] the tables of both spins and the total go to three different files next to each other, but
    only when the path is given as a path; the default, a text, raises. *)
Theorem C218_paths d s x : exists up down all, spin_tsv_paths (PathOf d s x) true = Some [up; down; all] /\ NoDup [up; down; all] /\ spin_tsv_paths (PathOf d s x) false = Some [all].
Proof.
  do 3 eexists. split; [reflexivity|]. split; [|reflexivity].
  assert (K : forall a b : text, length a <> length b -> d ++ s ++ a ++ x <> d ++ s ++ b ++ x). { intros a b N E. apply N. apply (f_equal (@length _)) in E. rewrite !app_length in E. lia. }
  repeat constructor; cbn [In]; intros C.
  - destruct C as [C|[C|[]]]; [now apply (K (lit "_down") (lit "_up"))|]. apply (K [] (lit "_up")); [discriminate|exact C].
  - destruct C as [C|[]]. apply (K [] (lit "_down")); [discriminate|exact C].
  - contradiction.
Qed.
Print Assumptions C218_paths.
Theorem C219_text_refuted : exists p, spin_tsv_paths p false <> None /\ spin_tsv_paths p true = None.
Proof. exists (TextPath (lit "badelf_atom_summary.tsv")). split; [discriminate|reflexivity]. Qed.
Print Assumptions C219_text_refuted.

(** ** Examples *)
Example C215_ex : write_atom_tsv [lit "Na"; lit "Cl1"] [(0, 0, 0); (1 # 2, 1 # 2, -1 # 3)]%Q [1 # 2; 123 # 1]%Q [10; 20]%Q [1; 2 # 3]%Q (Totals 0 0 (15 # 2) 30) =
  Some (nl (lit "label	x      	y      	z       	charge   	volume  	surface_dist") ++ nl (lit "Na   	0.00000	0.00000	0.00000 	0.50000  	10.00000	1.00000     ") ++ nl (lit "Cl1  	0.50000	0.50000	-0.33333	123.00000	20.00000	0.66667     ")
    ++ nl [] ++ nl (lit "Vacuum Charge:		0.00000") ++ nl (lit "Vacuum Volume:		0.00000") ++ nl (lit "Total Electrons:	7.50000") ++ nl (lit "Total Volume:	30.00000")).
Proof. vm_compute. reflexivity. Qed.
Example C216_ex : write_basin_tsv [lit "Na"; lit "Cl"] [true; false; true] [(0, 0, 0); (1 # 4, 0, 0); (1 # 2, 0, 0)]%Q [1; 1; 0] [1; 2; 3]%Q [1; 1; 1]%Q [1; 1; 1]%Q [0; 0; 0]%Q =
  Some (nl (lit "atoms	x      	y      	z      	charge 	volume 	surface_dist	atom_dist") ++ nl (lit "Cl   	0.00000	0.00000	0.00000	1.00000	1.00000	1.00000     	0.00000  ") ++ nl (lit "Na   	0.50000	0.00000	0.00000	3.00000	1.00000	1.00000     	0.00000  ")).
Proof. vm_compute. reflexivity. Qed.
Example C217_ex : badelf_tsv [lit "Na"] [(0, 0, 0)%Q] [1%Q] [2%Q] None 1%Q = Some (nl (lit "label	x      	y      	z      	charge 	volume ") ++ nl (lit "Na   	0.00000	0.00000	0.00000	1.00000	2.00000") ++ nl [] ++ nl (lit "Total Electrons:	1.00000")).
Proof. vm_compute. reflexivity. Qed.
Example C218_ex : spin_tsv_paths (PathOf (lit "d/") (lit "a") (lit ".tsv")) true = Some [lit "d/a_up.tsv"; lit "d/a_down.tsv"; lit "d/a.tsv"].
Proof. reflexivity. Qed.
