(** Reading what [write_vasp] wrote. *)
From Coq Require Import Ascii String QArith Qround Qabs Lqa Lia.
From Verif Require Import Base GridModel GridProofs ChargeModel NearModel NearProofs TextModel TextProofs FmtProofs GobjModel VaspModel.
Local Open Scope Z_scope.

(** ** Lists *)
Lemma chunks_fuel {A} n : (1 <= n)%nat -> forall f g (l : list A), (length l <= f)%nat -> (length l <= g)%nat -> chunks_f f n l = chunks_f g n l.
Proof.
  intros N. induction f as [|f IH]; intros g l F G; [destruct l; [destruct g; reflexivity|cbn in F; lia]|]. destruct l as [|x l]; [destruct g; reflexivity|]. destruct g as [|g]; [cbn in G; lia|]. cbn [chunks_f]. f_equal. apply IH; rewrite skipn_length; cbn [length] in *; lia.
Qed.
Lemma chunks_step {A} n (l : list A) : (1 <= n)%nat -> l <> [] -> chunks n l = firstn n l :: chunks n (skipn n l).
Proof.
  intros N L. unfold chunks. destruct l as [|x l]; [congruence|]. cbn [chunks_f length]. f_equal. apply chunks_fuel; [exact N| |reflexivity]. rewrite skipn_length. cbn [length]. lia.
Qed.
Lemma chunks_nil {A} n : chunks n (@nil A) = [].
Proof. reflexivity. Qed.
Lemma chunks_app {A} n k : (1 <= n)%nat -> forall (x y : list A), length x = (n * k)%nat -> chunks n (x ++ y) = chunks n x ++ chunks n y.
Proof.
  intros N. induction k as [|k IH]; intros x y L; [destruct x; [reflexivity|cbn in L; lia]|].
  assert (X : x <> []) by (intros ->; cbn in L; lia). assert (XY : x ++ y <> []) by (intros C; apply app_eq_nil in C as [C _]; contradiction).
  rewrite (chunks_step n (x ++ y) N XY), (chunks_step n x N X). cbn [app]. rewrite firstn_app, skipn_app. replace (n - length x)%nat with 0%nat by lia. cbn [firstn skipn]. rewrite app_nil_r. f_equal. apply IH. rewrite skipn_length. lia.
Qed.
Lemma chunks_chunks {A} a b : (1 <= a)%nat -> (1 <= b)%nat -> forall f (l : list A), (length l <= f)%nat -> List.concat (map (chunks a) (chunks (a * b) l)) = chunks a l.
Proof.
  intros P Q. induction f as [|f IH]; intros l F; [destruct l; [reflexivity|cbn in F; lia]|]. destruct l as [|x t] eqn:E; [reflexivity|]. rewrite <- E in *. assert (NE : l <> []) by congruence.
  assert (AB : (1 <= a * b)%nat) by nia. rewrite (chunks_step (a * b) l AB NE). cbn [map List.concat].
  destruct (Nat.le_gt_cases (length l) (a * b)) as [S|S].
  - rewrite skipn_all2 by lia. rewrite firstn_all2 by lia. cbn. apply app_nil_r.
  - rewrite IH; [|rewrite skipn_length; rewrite E in *; cbn [length] in *; lia]. rewrite <- (firstn_skipn (a * b) l) at 3. symmetry. apply (chunks_app a b); [exact P|]. rewrite firstn_length. lia.
Qed.

(** ** The text of one set *)
Definition field (p : Z * Z) : text := format_fortran (fst p) (snd p).
Definition row (l : list (Z * Z)) : text := nl (List.concat (map field l)).
Definition block (l : list (Z * Z)) : text := List.concat (map row (chunks 5 l)).

Lemma join_nl l : l <> [] -> join [newline] l ++ [newline] = List.concat (map nl l).
Proof.
  induction l as [|t l IH]; [congruence|]. intros _. destruct l as [|u l]; [cbn; now rewrite app_nil_r|]. change (join [newline] (t :: u :: l)) with (t ++ [newline] ++ join [newline] (u :: l)). rewrite <- !app_assoc. rewrite IH by discriminate. unfold nl at 2. cbn [map List.concat]. unfold nl. rewrite <- !app_assoc. reflexivity.
Qed.
Lemma chunks_map {A B} (f : A -> B) n : forall fuel l, chunks_f fuel n (map f l) = map (map f) (chunks_f fuel n l).
Proof. induction fuel as [|fuel IH]; intros l; [destruct l; reflexivity|]. destruct l as [|x l]; [reflexivity|]. cbn [chunks_f]. change (f x :: map f l) with (map f (x :: l)). rewrite firstn_map, skipn_map, IH. reflexivity. Qed.
Lemma format_arr l : format_fortran_arr 5 l = block l.
Proof.
  unfold format_fortran_arr, block. destruct l as [|p l]; [reflexivity|]. assert (E : map (fun '(m, e) => format_fortran m e) (p :: l) = map field (p :: l)) by (apply map_ext; intros [m e]; reflexivity). rewrite E. cbn [map]. change (field p :: map field l) with (map field (p :: l)).
  unfold chunks. rewrite map_length, chunks_map. rewrite join_nl; [rewrite !map_map; reflexivity|]. cbn. discriminate.
Qed.
Lemma write_data_block a : write_vasp_data 50 5 a = block (map (fun q => (fortran_mant q, fortran_exp q)) (ravel a)).
Proof.
  unfold write_vasp_data, block. set (l := map _ (ravel a)). rewrite (map_ext _ block format_arr). rewrite <- (chunks_chunks 5 50 ltac:(lia) ltac:(lia) (length l) l) by lia. set (cs := chunks (5 * 50) l). clearbody cs. clear.
  induction cs as [|c cs IH]; [reflexivity|]. cbn [map List.concat]. rewrite map_app, concat_app, IH. reflexivity.
Qed.

Definition ok_pair (p : Z * Z) : Prop := (10000000000 <= Z.abs (fst p) < e11 \/ fst p = 0) /\ Z.abs (snd p) < 100.
Definition value (p : Z * Z) : Q := if fst p =? 0 then 0%Q else (inject_Z (fst p) * pow10 (snd p - 11))%Q.
Lemma field_eq p : field p = space :: body (fst p) (snd p).
Proof. apply field_body. Qed.
Lemma field_length p : ok_pair p -> length (field p) = 18%nat.
Proof. intros [M E]. rewrite field_eq. cbn [length]. f_equal. now apply body_word. Qed.
Lemma field_parse p r : ok_pair p -> stops is_digit r -> exists v, parse_float (body (fst p) (snd p) ++ r) = Some (v, r) /\ (v == value p)%Q.
Proof.
  intros [[M|M] E] S; unfold value.
  - replace (fst p =? 0) with false by lia. now apply body_parse.
  - rewrite M. cbn [Z.eqb]. now apply body_parse0.
Qed.
Lemma fromstring_space n c t : is_space c = true -> fromstring n (c :: t) = fromstring n t.
Proof. intros C. destruct n; [reflexivity|]. cbn [fromstring]. replace (drop_space (c :: t)) with (drop_space t); [reflexivity|]. unfold drop_space. cbn [span]. rewrite C. destruct (span is_space t). reflexivity. Qed.
Lemma drop_word t : word t -> drop_space t = t.
Proof. intros [N F]. destruct t as [|c t]; [congruence|]. inversion F as [|? ? C _]; subst. unfold drop_space. cbn [span]. now rewrite C. Qed.
Lemma drop_word_app t r : word t -> drop_space (t ++ r) = t ++ r.
Proof. intros [N F]. destruct t as [|c t]; [congruence|]. inversion F as [|? ? C _]; subst. unfold drop_space. cbn [span app]. now rewrite C. Qed.
Lemma fromstring_field n p r : ok_pair p -> stops is_digit r -> exists v, fromstring (S n) (field p ++ r) = v :: fromstring n r /\ (v == value p)%Q.
Proof.
  intros O S. rewrite field_eq. cbn [app]. rewrite fromstring_space by reflexivity. cbn [fromstring]. rewrite drop_word_app by (apply body_word, O). destruct (field_parse p r O S) as (v & E & V). rewrite E. eauto.
Qed.
Lemma stops_fields l r : stops is_digit r -> stops is_digit (List.concat (map field l) ++ r).
Proof. destruct l as [|p l]; [auto|]. intros _. cbn [map List.concat]. rewrite field_eq. reflexivity. Qed.
Lemma fromstring_fields n r : stops is_digit r -> forall l, Forall ok_pair l -> exists vs, fromstring (length l + n) (List.concat (map field l) ++ r) = vs ++ fromstring n r /\ Forall2 (fun v p => v == value p)%Q vs l.
Proof.
  intros S. induction l as [|p l IH]; intros F; [exists []; split; [reflexivity|constructor]|]. inversion F as [|? ? O F']; subst. cbn [map List.concat length Nat.add]. rewrite <- app_assoc. destruct (fromstring_field (length l + n) p (List.concat (map field l) ++ r) O (stops_fields l r S)) as (v & E & V).
  destruct (IH F') as (vs & E' & V'). exists (v :: vs). rewrite E, E'. split; [reflexivity|constructor; assumption].
Qed.
Lemma fromstring_row n l r : Forall ok_pair l -> exists vs, fromstring (length l + n) (row l ++ r) = vs ++ fromstring n r /\ Forall2 (fun v p => v == value p)%Q vs l.
Proof.
  intros F. unfold row, nl. rewrite <- app_assoc. cbn [app]. destruct (fromstring_fields n (newline :: r) eq_refl l F) as (vs & E & V). exists vs. rewrite E, fromstring_space by reflexivity. auto.
Qed.
Lemma fromstring_block n r : forall f l, (length l <= f)%nat -> Forall ok_pair l -> exists vs, fromstring (length l + n) (block l ++ r) = vs ++ fromstring n r /\ Forall2 (fun v p => v == value p)%Q vs l.
Proof.
  induction f as [|f IH]; intros l L F; [destruct l; [exists []; split; [reflexivity|constructor]|cbn in L; lia]|]. destruct l as [|x t] eqn:E; [exists []; split; [reflexivity|constructor]|]. rewrite <- E in *. assert (NE : l <> []) by congruence.
  unfold block. rewrite (chunks_step 5 l ltac:(lia) NE). cbn [map List.concat]. fold (block (skipn 5 l)). rewrite <- app_assoc. assert (LL : length l = (length (firstn 5 l) + length (skipn 5 l))%nat) by (rewrite <- app_length, firstn_skipn; reflexivity). rewrite LL, <- Nat.add_assoc.
  assert (FS : Forall ok_pair (firstn 5 l ++ skipn 5 l)) by (rewrite firstn_skipn; exact F). apply Forall_app in FS as [F1 F2].
  destruct (fromstring_row (length (skipn 5 l) + n) (firstn 5 l) (block (skipn 5 l) ++ r) F1) as (v1 & E1 & V1).
  destruct (IH (skipn 5 l)) as (v2 & E2 & V2); [rewrite skipn_length; rewrite E in *; cbn [length] in *; lia|exact F2|]. exists (v1 ++ v2). rewrite E1, E2, app_assoc. split; [reflexivity|]. rewrite <- (firstn_skipn 5 l). now apply Forall2_app.
Qed.
Lemma row_length l : Forall ok_pair l -> length (row l) = (18 * length l + 1)%nat.
Proof. intros F. unfold row, nl. rewrite app_length. cbn [length]. f_equal. induction F as [|p l O F IH]; [reflexivity|]. cbn [map List.concat length]. rewrite app_length, IH, field_length by exact O. lia. Qed.
Lemma block_length : forall f l, (length l <= f)%nat -> Forall ok_pair l -> length (block l) = (18 * length l + (length l + 4) / 5)%nat.
Proof.
  induction f as [|f IH]; intros l L F; [destruct l; [reflexivity|cbn in L; lia]|]. destruct l as [|x t] eqn:E; [reflexivity|]. rewrite <- E in *. assert (NE : l <> []) by congruence. assert (L1 : (1 <= length l)%nat) by (rewrite E; cbn; lia).
  unfold block. rewrite (chunks_step 5 l ltac:(lia) NE). cbn [map List.concat]. fold (block (skipn 5 l)). rewrite app_length. assert (FS : Forall ok_pair (firstn 5 l ++ skipn 5 l)) by (rewrite firstn_skipn; exact F). apply Forall_app in FS as [F1 F2].
  rewrite row_length by exact F1. rewrite IH; [|rewrite skipn_length; lia|exact F2]. rewrite firstn_length, skipn_length.
  destruct (Nat.le_gt_cases (length l) 5) as [S|S].
  - rewrite Nat.min_r by lia. replace (length l - 5)%nat with 0%nat by lia. change ((0 + 4) / 5)%nat with 0%nat. replace ((length l + 4) / 5)%nat with 1%nat; [lia|]. apply (Nat.div_unique _ 5 1 (length l - 1)); lia.
  - rewrite Nat.min_l by lia. replace (length l + 4)%nat with (length l - 5 + 4 + 1 * 5)%nat by lia. rewrite Nat.div_add by lia. lia.
Qed.

(** ** Lines and words *)
Lemma newline_space : is_space newline = true.
Proof. reflexivity. Qed.
Lemma no_space_no_newline t : no_space t -> ~ In newline t.
Proof. intros F I. unfold no_space in F. rewrite Forall_forall in F. apply F in I. discriminate. Qed.
Lemma readline_nl t r : ~ In newline t -> readline (nl t ++ r) = (nl t, r).
Proof. intros N. unfold nl. rewrite <- app_assoc. cbn [app]. now apply readline_app. Qed.
Lemma split_spaces s t : Forall (fun c => is_space c = true) s -> split (s ++ t) = split t.
Proof.
  intros F. assert (D : drop_space (s ++ t) = drop_space t).
  { clear - F. induction F as [|c s C F IH]; [reflexivity|]. rewrite <- IH. unfold drop_space. cbn [app span]. rewrite C. now destruct (span is_space (s ++ t)). }
  unfold split at 2. rewrite (split_f_fuel (S (length t)) (S (length (s ++ t))) t) by (rewrite ?app_length; lia). unfold split. cbn [split_f]. now rewrite D.
Qed.
Lemma split_items items s : Forall (fun '(k, w) => (1 <= k)%nat /\ word w) items -> Forall (fun c => is_space c = true) s ->
  split (List.concat (map (fun '(k, w) => repeat space k ++ w) items) ++ s) = map snd items.
Proof.
  intros F S. induction F as [|[k w] items [K W] F IH]; [now apply split_blank|]. cbn [map List.concat snd]. rewrite <- !app_assoc. rewrite split_word; [now rewrite IH|apply spaces_ok|exact W|].
  destruct items as [|[k' w'] items].
  - cbn [map List.concat app]. destruct s as [|c s]; [exact I|]. inversion S as [|? ? C _]; subst. cbn. now rewrite C.
  - cbn [map List.concat]. pose proof (Forall_inv F) as [K' _]. destruct k' as [|k']; [lia|]. reflexivity.
Qed.
Lemma split_padded ss s : Forall (fun w => word w /\ (length w <= 4)%nat) ss -> Forall (fun c => is_space c = true) s -> split (List.concat (map (pad_right 5) ss) ++ s) = ss.
Proof.
  intros F S. induction F as [|w ss [W L] F IH]; [now apply split_blank|]. cbn [map List.concat]. unfold pad_right at 1. rewrite <- !app_assoc. change (w ++ repeat space (5 - length w) ++ List.concat (map (pad_right 5) ss) ++ s) with ([] ++ w ++ repeat space (5 - length w) ++ List.concat (map (pad_right 5) ss) ++ s).
  rewrite split_word; [|constructor|exact W|destruct (5 - length w)%nat eqn:E; [lia|reflexivity]]. f_equal. rewrite split_spaces by apply spaces_ok. exact IH.
Qed.

Lemma field_no_newline p : ok_pair p -> ~ In newline (field p).
Proof. intros [M _] I. rewrite field_eq in I. destruct I as [I|I]; [discriminate|]. revert I. apply no_space_no_newline. now apply body_word. Qed.
Lemma fields_no_newline l : Forall ok_pair l -> ~ In newline (List.concat (map field l)).
Proof. induction 1 as [|p l O F IH]; cbn [map List.concat]; [auto|]. intros I. apply in_app_iff in I as [I|I]; [now apply field_no_newline in I|auto]. Qed.
Lemma split_row l : Forall ok_pair l -> length (split (row l)) = length l.
Proof.
  intros F. unfold row, nl. assert (E : List.concat (map field l) = List.concat (map (fun '(k, w) => repeat space k ++ w) (map (fun p => (1%nat, body (fst p) (snd p))) l))).
  { rewrite map_map. f_equal. apply map_ext. intros p. rewrite field_eq. reflexivity. }
  rewrite E, split_items; [rewrite !map_length; reflexivity| |constructor; [reflexivity|constructor]]. apply Forall_map. eapply Forall_impl; [|exact F]. intros p [M _]. split; [lia|now apply body_word].
Qed.
Lemma first_row l r : l <> [] -> Forall ok_pair l -> readline (block l ++ r) = (row (firstn 5 l), block (skipn 5 l) ++ r).
Proof.
  intros N F. unfold block. rewrite (chunks_step 5 l ltac:(lia) N). cbn [map List.concat]. rewrite <- app_assoc. unfold row at 1. rewrite readline_nl; [reflexivity|]. apply fields_no_newline. rewrite <- (firstn_skipn 5 l) in F. apply Forall_app in F. apply F.
Qed.
Lemma window l r : l <> [] -> Forall ok_pair l -> block_bytes (length l) (fst (readline (block l ++ r))) = Some (length (block l)).
Proof.
  intros N F. rewrite (first_row l r N F). cbn [fst]. assert (F1 : Forall ok_pair (firstn 5 l)) by (rewrite <- (firstn_skipn 5 l) in F; apply Forall_app in F; apply F).
  unfold block_bytes. rewrite split_row, row_length by exact F1. rewrite (block_length (length l) l (le_n _) F). rewrite firstn_length. assert (L : (1 <= length l)%nat) by (destruct l; [congruence|cbn; lia]). set (n := length l) in *. clearbody n.
  destruct (Nat.eq_dec n 1) as [->|N1]; [reflexivity|]. set (v := Nat.min 5 n). assert (V : (2 <= v <= 5)%nat) by lia. replace (Nat.eqb v 0) with false by (symmetry; apply Nat.eqb_neq; lia).
  assert (M : ((18 * v + 1) mod v = 1)%nat). { rewrite (Nat.add_comm (18 * v)), Nat.mod_add by lia. apply Nat.mod_small. lia. }
  rewrite M. replace (18 * v + 1 - 1)%nat with (18 * v)%nat by lia. rewrite Nat.div_mul by lia. rewrite Nat.mul_1_r. f_equal. f_equal. destruct (Nat.le_gt_cases 5 n) as [G|G].
  - unfold v. rewrite Nat.min_l by lia. f_equal. lia.
  - unfold v. rewrite Nat.min_r by lia. transitivity 1%nat; [|apply (Nat.div_unique _ 5 1 (n - 1)); lia]. symmetry. apply (Nat.div_unique _ n 1 (n - 1)); lia.
Qed.

(** ** The sets of a file *)
Definition good_line (dims l : text) : Prop := exists x, l = nl x /\ ~ In newline x /\ strip l <> strip dims.
Lemma text_eqb_spec a : forall b, text_eqb a b = true <-> a = b.
Proof.
  induction a as [|x a IH]; intros [|y b]; cbn; split; try congruence. - intros H. apply andb_true_iff in H as [E H]. apply Ascii.eqb_eq in E. apply IH in H. congruence.
  - intros [= -> ->]. rewrite Ascii.eqb_refl. now apply IH.
Qed.
Lemma aug_spec dims ls r : Forall (good_line dims) ls -> (r = [] \/ exists u, r = nl u ++ snd (readline r) /\ ~ In newline u /\ strip (nl u) = strip dims) ->
  forall f, (length ls < f)%nat -> aug_lines f (strip dims) (List.concat ls ++ r) = (List.concat ls, snd (readline r)).
Proof.
  intros F R. induction F as [|l ls (x & -> & NX & NE) F IH]; intros f L; (destruct f as [|f]; [cbn in L; lia|]).
  - cbn [List.concat app aug_lines]. destruct R as [->|(u & E & NU & S)]; [reflexivity|]. rewrite E at 1. rewrite readline_nl by exact NU. unfold nl at 1. destruct (u ++ [newline]) as [|c t] eqn:EU; [destruct u; discriminate|]. rewrite (proj2 (text_eqb_spec _ _) S). reflexivity.
  - cbn [List.concat aug_lines]. rewrite <- app_assoc. rewrite readline_nl by exact NX. unfold nl at 1. destruct (x ++ [newline]) as [|c t] eqn:EX; [destruct x; discriminate|]. destruct (text_eqb (strip (nl x)) (strip dims)) eqn:Q; [apply text_eqb_spec in Q; contradiction|].
    rewrite IH by (cbn in L; lia). reflexivity.
Qed.
(** A set: its numbers and its augmentation lines. *)
Definition one_set : Type := list (Z * Z) * list text.
Definition good_set (dims : text) (n : nat) (s : one_set) : Prop := length (fst s) = n /\ Forall ok_pair (fst s) /\ Forall (good_line dims) (snd s).
Fixpoint after (dims : text) (l : list one_set) : text :=
  match l with [] => [] | s :: t => dims ++ block (fst s) ++ List.concat (snd s) ++ after dims t end.
Definition got (r : list Q * text) (s : one_set) : Prop := Forall2 (fun v p => v == value p)%Q (fst r) (fst s) /\ snd r = List.concat (snd s).
Lemma Forall2_len {A B} (R : A -> B -> Prop) l m : Forall2 R l m -> length l = length m.
Proof. induction 1; cbn; congruence. Qed.

Lemma blocks_spec u n : ~ In newline u -> (1 <= n)%nat -> let dims := nl u in let nb := (18 * n + (n + 4) / 5)%nat in
  forall rest s acc f, good_set dims n s -> Forall (good_set dims n) rest -> (length rest + 1 < f)%nat ->
  exists rs, blocks f false n nb (strip dims) (block (fst s) ++ List.concat (snd s) ++ after dims rest) acc = Some (acc ++ rs) /\ Forall2 got rs (s :: rest).
Proof.
  intros NU N dims nb. induction rest as [|s' rest IH]; intros s acc f (LS & OS & GS) FR L; (destruct f as [|f]; [lia|]);
    assert (LB : length (block (fst s)) = nb) by (rewrite (block_length (length (fst s)) (fst s) (le_n _) OS), LS; reflexivity).
  - cbn [after]. rewrite app_nil_r. cbn [blocks]. destruct (block (fst s) ++ List.concat (snd s)) as [|c t] eqn:ET; [apply (f_equal (@length ascii)) in ET; rewrite app_length in ET; cbn [length] in ET; lia|]. rewrite <- ET. cbn [andb].
    rewrite firstn_app, <- LB, firstn_all, Nat.sub_diag. cbn [firstn]. destruct (fromstring_block 0 [] (length (fst s)) (fst s) (le_n _) OS) as (vs & E & V). cbn [fromstring] in E. rewrite Nat.add_0_r, app_nil_r, LS in E. rewrite app_nil_r in E |- *. rewrite E.
    assert (LV := Forall2_len _ _ _ V). rewrite LV, LS, Nat.ltb_irrefl. replace (Nat.ltb (length (block (fst s) ++ List.concat (snd s))) (length (block (fst s)))) with false by (symmetry; apply Nat.ltb_ge; rewrite app_length; lia).
    rewrite skipn_app, skipn_all, Nat.sub_diag. cbn [app skipn]. remember (S (length (block (fst s) ++ List.concat (snd s)))) as K eqn:HK. replace (aug_lines K (strip dims) (List.concat (snd s))) with (aug_lines K (strip dims) (List.concat (snd s) ++ [])) by now rewrite app_nil_r. rewrite aug_spec; [|exact GS|left; reflexivity|].
    + cbn [readline snd]. destruct f as [|f]; [cbn in L; lia|]. cbn [blocks]. eexists. split; [reflexivity|]. constructor; [split; [exact V|reflexivity]|constructor].
    + subst K. clear - GS. rewrite app_length. enough (length (snd s) <= length (List.concat (snd s)))%nat by lia. induction GS as [|l ls (x & -> & _) G IH]; [cbn; lia|]. cbn [List.concat length]. unfold nl. rewrite !app_length. cbn [length]. lia.
  - inversion FR as [|? ? GS' FR']; subst. cbn [after blocks]. set (R := dims ++ block (fst s') ++ List.concat (snd s') ++ after dims rest). destruct (block (fst s) ++ List.concat (snd s) ++ R) as [|c t] eqn:ET; [apply (f_equal (@length ascii)) in ET; rewrite app_length in ET; cbn [length] in ET; lia|]. rewrite <- ET. cbn [andb].
    rewrite firstn_app, <- LB, firstn_all, Nat.sub_diag. cbn [firstn]. destruct (fromstring_block 0 [] (length (fst s)) (fst s) (le_n _) OS) as (vs & E & V). cbn [fromstring] in E. rewrite Nat.add_0_r, app_nil_r in E. rewrite app_nil_r in E |- *. rewrite E.
    assert (LV := Forall2_len _ _ _ V). rewrite LV, Nat.ltb_irrefl. replace (Nat.ltb (length (block (fst s) ++ List.concat (snd s) ++ R)) (length (block (fst s)))) with false by (symmetry; apply Nat.ltb_ge; rewrite app_length; lia).
    rewrite skipn_app, skipn_all, Nat.sub_diag. cbn [app skipn]. rewrite aug_spec; [|exact GS| |].
    + assert (ERL : readline R = (dims, block (fst s') ++ List.concat (snd s') ++ after dims rest)) by (apply readline_nl; exact NU). rewrite ERL. cbn [snd]. rewrite LB. destruct (IH s' (acc ++ [(vs, List.concat (snd s))]) f GS' FR' ltac:(cbn in L; lia)) as (rs & ER & FG). exists ((vs, List.concat (snd s)) :: rs). rewrite <- app_assoc in ER. split; [exact ER|]. constructor; [split; [exact V|reflexivity]|exact FG].
    + right. exists u. assert (ERL : readline R = (dims, block (fst s') ++ List.concat (snd s') ++ after dims rest)) by (apply readline_nl; exact NU). rewrite ERL. cbn [snd]. auto.
    + clear - GS. rewrite !app_length. enough (length (snd s) <= length (List.concat (snd s)))%nat by lia. induction GS as [|l ls (x & -> & _) G IH]; [cbn; lia|]. cbn [List.concat length]. unfold nl. rewrite !app_length. cbn [length]. lia.
Qed.
