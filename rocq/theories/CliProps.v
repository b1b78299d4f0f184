(** C202-C212: the guess of a file's format and the command line. *)
From Coq Require Import Ascii String QArith Qround Qabs Lqa Lia.
From Verif Require Import Base GridModel GridProofs ChargeModel NearModel NearSpec NearProofs TextModel TextProofs FmtProofs GobjModel VaspModel VaspProofs VaspTop VaspProps CubeModel CubeProofs CubeTop CliModel.
Local Open Scope Z_scope.

(** ** The format of a file *)
Lemma next_nl t r : ~ In newline t -> next (nl t ++ r) = Some (nl t, r).
Proof. intros N. unfold next. rewrite readline_nl by exact N. destruct t; reflexivity. Qed.
Lemma lit_no_newline s : existsb (Ascii.eqb newline) (lit s) = false -> ~ In newline (lit s).
Proof. intros E I. assert (existsb (Ascii.eqb newline) (lit s) = true) by (apply existsb_exists; exists newline; split; [exact I|apply Ascii.eqb_refl]). congruence. Qed.
Lemma third_header v4 g : let '(a, _, _) := v_matrix g in third_line (write_vasp v4 g) = Some (nl (space :: row_text 12 a)).
Proof.
  destruct (v_matrix g) as [[a b] c] eqn:E. unfold write_vasp, header. rewrite E. rewrite <- !app_assoc. unfold third_line.
  rewrite next_nl by (now apply lit_no_newline). cbn [obnd]. rewrite next_nl by (now apply lit_no_newline). cbn [obnd].
  rewrite next_nl; [reflexivity|]. intros [I|I]; [discriminate|now apply row_no_newline in I].
Qed.
Lemma row_three v s : all3 (small 3) v -> Forall (fun c => is_space c = true) s -> length (split (row_text 12 v ++ s)) = 3%nat.
Proof.
  destruct v as [[x y] z]. intros (X & Y & Z0) B. unfold row_text. destruct (f6_item 12 3 x ltac:(lia) ltac:(lia) X) as (nx & NX & ->). destruct (f6_item 12 3 y ltac:(lia) ltac:(lia) Y) as (ny & NY & ->). destruct (f6_item 12 3 z ltac:(lia) ltac:(lia) Z0) as (nz & NZ & ->).
  replace (((repeat space nx ++ fixed_body x) ++ (repeat space ny ++ fixed_body y) ++ repeat space nz ++ fixed_body z) ++ s) with (List.concat (map (fun '(k, w) => repeat space k ++ w) [(nx, fixed_body x); (ny, fixed_body y); (nz, fixed_body z)]) ++ s) by (cbn [map List.concat]; now rewrite app_nil_r).
  rewrite split_items; [reflexivity| |exact B]. repeat constructor; auto; apply fixed_word.
Qed.

(** C202: a file written in VASP's format or as a cube file is recognised as such (and read back as the grid it holds);
    only a file with hdf5's signature is taken for hdf5. *)
Theorem C202_vasp decodes v4 g : decodes (write_vasp v4 g) = true -> all3 (small 3) (fst (fst (v_matrix g))) -> detect_format decodes (write_vasp v4 g) = Some Vasp.
Proof.
  intros D M. unfold detect_format. rewrite D. pose proof (third_header v4 g) as T. destruct (v_matrix g) as [[a b] c]. cbn [fst] in M. rewrite T. unfold nl. change ((space :: row_text 12 a) ++ [newline]) with ([space] ++ (row_text 12 a ++ [newline])).
  rewrite split_spaces by (repeat constructor). now rewrite row_three by (auto using nl_blank).
Qed.
Theorem C202_cube decodes g charges origin : let file := fst (write_cube g charges origin) in
  decodes file = true -> Z.of_nat (length (c_sites g)) < 10000 -> all3 (small 3) (vscale bohr (origin_or origin)) -> detect_format decodes file = Some Cube.
Proof.
  intros file D N O. unfold detect_format. rewrite D. clear D. unfold file, write_cube. destruct (a_shape (c_total g)) as [[nx ny] nz]. destruct (c_matrix g) as [[a b] c]. cbn [fst]. unfold third_line.
  rewrite next_nl by (now apply lit_no_newline). cbn [obnd]. rewrite next_nl by (now apply lit_no_newline). cbn [obnd]. unfold count_text at 1.
  rewrite next_nl by (apply no_newline_app; [apply fmt_int_no_newline|apply row_no_newline]). cbn [obnd]. set (n := Z.of_nat (length (c_sites g))).
  destruct (int_item 5 n 4 ltac:(change (10 ^ 4) with 10000; unfold n; lia) ltac:(lia) ltac:(lia)) as (j & J & E). destruct (row_items _ O) as (l & EL & FL & v' & EV & RV).
  unfold nl. rewrite E, EL. change ((repeat space j ++ str_int n) ++ List.concat (map (fun '(k, w) => repeat space k ++ w) l)) with (List.concat (map (fun '(k, w) => repeat space k ++ w) ((j, str_int n) :: l))).
  rewrite split_items; [|constructor; [split; [exact J|apply str_int_word]|exact FL]|exact nl_blank]. cbn [map snd length].
  assert (L : length (map snd l) = 3%nat).
  { pose proof (row_three _ [] O (Forall_nil _)) as R. rewrite EL in R. rewrite split_items in R by (auto; constructor). exact R. }
  unfold text in *. now rewrite L.
Qed.
Theorem C202_hdf5 decodes file : detect_format decodes file = Some Hdf5 -> firstn 8 file = signature /\ (decodes file = false \/ third_line file = None).
Proof.
  unfold detect_format. destruct (decodes file) eqn:D; [destruct (third_line file) eqn:T|].
  - destruct (Nat.eqb _ 3); [discriminate|]. destruct (Nat.eqb _ 4); discriminate.
  - destruct (text_eqb _ _) eqn:E; [|discriminate]. intros _. apply text_eqb_spec in E. auto.
  - destruct (text_eqb _ _) eqn:E; [|discriminate]. intros _. apply text_eqb_spec in E. auto.
Qed.
Theorem C202_binary decodes rest : decodes (signature ++ rest) = false -> detect_format decodes (signature ++ rest) = Some Hdf5.
Proof. intros D. unfold detect_format. rewrite D. reflexivity. Qed.

Lemma sets_keys root s l d a : sets root s l = Some (d, a) -> map fst d = [Total] \/ map fst d = [Total; Diff] \/ map fst d = [Total; DiffX; DiffY; DiffZ; Diff].
Proof.
  unfold sets. destruct l as [|[x tx] [|[y ty] [|[z tz] [|[w tw] [|]]]]]; try discriminate; intros E; try (destruct p); injection E as <- _; cbn; auto.
Qed.
Lemma read_keys root b file g : read_vasp root b file = Some g -> map fst (v_data g) = [Total] \/ map fst (v_data g) = [Total; Diff] \/ map fst (v_data g) = [Total; DiffX; DiffY; DiffZ; Diff].
Proof.
  unfold read_vasp. repeat (let l := fresh "l" in let t := fresh "t" in destruct (readline _) as [l t]).
  destruct (float_of _); [|discriminate]. cbn [obnd]. repeat (let l := fresh "l" in let t := fresh "t" in destruct (readline _) as [l t]).
  destruct (vec_line _); [|discriminate]. cbn [obnd]. destruct (vec_line _); [|discriminate]. cbn [obnd]. destruct (vec_line _); [|discriminate]. cbn [obnd]. repeat (let l := fresh "l" in let t := fresh "t" in destruct (readline _) as [l t]).
  destruct (ints_of _) as [c|]; [|discriminate]. cbn [obnd]. repeat (let l := fresh "l" in let t := fresh "t" in destruct (readline _) as [l t]). destruct (coord_lines _ _) as [[vs u]|]; [|discriminate]. cbn [obnd]. repeat (let l := fresh "l" in let t := fresh "t" in destruct (readline _) as [l t]).
  destruct (Nat.eqb _ _); [|discriminate]. destruct (read_data _ _ _ _) as [[d a]|] eqn:R; [|discriminate]. cbn [obnd]. intros E. injection E as <-. cbn [v_data].
  unfold read_data in R. destruct (ints_of _) as [ds|]; [|discriminate]. cbn [obnd] in R. destruct ds as [|nx [|ny [|nz [|]]]]; try discriminate. destruct (_ && _ && _); [|discriminate]. destruct (block_bytes _ _); [|discriminate]. cbn [obnd] in R. destruct (blocks _ _ _ _ _ _ _); [|discriminate]. cbn [obnd] in R. eapply sets_keys, R.
Qed.
Section Reading.
Variables (root : Q -> Q) (sample : list Q -> list Q) (decodes : text -> bool) (of_cube : cgrid -> vgrid) (to_cube : vgrid -> cgrid) (read_hdf5 : text -> option vgrid) (write_hdf5 : vgrid -> text).
Notation dyn := (from_dynamic root sample decodes of_cube read_hdf5).
Lemma dyn_vasp s g total_only f : storable s g -> decodes (write_vasp false g) = true -> f = None \/ f = Some Vasp ->
  dyn f total_only (write_vasp false g) = obnd (read_vasp root total_only (write_vasp false g)) (fun g => Some (Held Vasp g)).
Proof.
  intros ST D F. unfold from_dynamic. assert (M := st_matrix _ _ ST). destruct F as [->| ->]; [|reflexivity].
  rewrite C202_vasp; [reflexivity|exact D|]. destruct (v_matrix g) as [[a b] c]. cbn in *. tauto.
Qed.
Theorem C202_read s g f : storable s g -> decodes (write_vasp false g) = true -> f = None \/ f = Some Vasp -> exists g', dyn f false (write_vasp false g) = Some (Held Vasp g') /\ same_file g g' /\
  forall k, match lookup k (v_data g) with
            | None => lookup k (v_data g') = None
            | Some a => exists b, lookup k (v_data g') = Some b /\ arr_near a b
            end.
Proof.
  intros ST D F. rewrite (dyn_vasp s g false f ST D F). destruct (C28_roundtrip root s g ST) as (g' & E & SF & K). rewrite E. exists g'. split; [reflexivity|]. split; [exact SF|]. intros k. specialize (K k).
  destruct (lookup k (v_data g)); [|exact K]. destruct K as (b & B & N & _). eauto.
Qed.

(** C203: a conversion keeps the total data. *)
Theorem C203_total s g f : storable s g -> decodes (write_vasp false g) = true -> f = None \/ f = Some Vasp -> exists g' t b,
  lookup Total (v_data g) = Some t /\ same_file g g' /\ v_data g' = [(Total, b)] /\ arr_near t b /\
  convert root sample decodes of_cube to_cube read_hdf5 write_hdf5 (write_vasp false g) Vasp f = Some (write_vasp false g') /\
  convert root sample decodes of_cube to_cube read_hdf5 write_hdf5 (write_vasp false g) Cube f = Some (fst (write_cube (to_cube g') None None)).
Proof.
  intros ST D F. destruct (C28_total root s g ST) as (g' & t & b & E & SF & T & V & N). exists g', t, b. split; [exact T|]. split; [exact SF|]. split; [exact V|]. split; [exact N|].
  unfold convert. rewrite (dyn_vasp s g true f ST D F), E. cbn. auto.
Qed.

(** C205: the sum of two files holds the sums of their values. *)
Lemma lookup_keys k : forall (d1 d2 : list (key * arr)), map fst d1 = map fst d2 ->
  lookup k (map (fun '((k, a), (_, b)) => (k, arr_add a b)) (combine d1 d2)) = match lookup k d1, lookup k d2 with Some a, Some b => Some (arr_add a b) | _, _ => None end.
Proof.
  induction d1 as [|[x a] d1 IH]; intros [|[y b] d2]; cbn; try discriminate; [reflexivity|]. intros E. injection E as <- E. destruct (key_eqb k x) eqn:K; [reflexivity|]. now apply IH.
Qed.
Lemma keys_eqb_spec a : forall b, keys_eqb a b = true <-> a = b.
Proof.
  induction a as [|x a IH]; intros [|y b]; cbn; try (split; congruence). rewrite andb_true_iff, IH. split; [intros [K ->]; f_equal; destruct x, y; (reflexivity || discriminate K)|]. intros E. injection E as -> ->. split; [now destruct y|reflexivity].
Qed.
Theorem C205_sum s f g1 g2 : storable s g1 -> storable s g2 -> decodes (write_vasp false g1) = true -> decodes (write_vasp false g2) = true -> f = None \/ f = Some Vasp ->
  (lookup Diff (v_data g1) = None <-> lookup Diff (v_data g2) = None) ->
  exists g, sum root sample decodes of_cube to_cube read_hdf5 write_hdf5 (write_vasp false g1) (write_vasp false g2) f None = Some (write_vasp false g) /\ same_file g1 g /\
    forall k, match lookup k (v_data g1), lookup k (v_data g2) with
              | Some a1, Some a2 => exists b1 b2 b, arr_near a1 b1 /\ arr_near a2 b2 /\ lookup k (v_data g) = Some b /\ a_shape b = a_shape a1 /\ forall i j l, (a_at b i j l == a_at b1 i j l + a_at b2 i j l)%Q
              | _, _ => lookup k (v_data g) = None
              end.
Proof.
  intros S1 S2 D1 D2 F SD. destruct (C202_read s g1 f S1 D1 F) as (r1 & E1 & F1 & K1). destruct (C202_read s g2 f S2 D2 F) as (r2 & E2 & F2 & K2). unfold sum. rewrite E1, E2. cbn [obnd h_grid h_format].
  assert (R1 : exists file, read_vasp root false file = Some r1) by (rewrite (dyn_vasp s g1 false f S1 D1 F) in E1; destruct (read_vasp root false (write_vasp false g1)) eqn:R; [|discriminate]; cbn in E1; injection E1 as <-; eauto).
  assert (R2 : exists file, read_vasp root false file = Some r2) by (rewrite (dyn_vasp s g2 false f S2 D2 F) in E2; destruct (read_vasp root false (write_vasp false g2)) eqn:R; [|discriminate]; cbn in E2; injection E2 as <-; eauto).
  assert (NX : forall g r, storable s g -> (forall k, match lookup k (v_data g) with None => lookup k (v_data r) = None | Some a => exists b, lookup k (v_data r) = Some b /\ arr_near a b end) -> (exists file, read_vasp root false file = Some r) ->
    map fst (v_data r) = match lookup Diff (v_data g) with Some _ => [Total; Diff] | None => [Total] end).
  { clear. intros g r ST K [file R]. destruct (read_keys root false file r R) as [E|[E|E]]; rewrite E.
    - specialize (K Diff). destruct (lookup Diff (v_data g)); [|reflexivity]. destruct K as (b & B & _). destruct (v_data r) as [|[x a0] [|]]; try discriminate. cbn in E. injection E as ->. discriminate.
    - specialize (K Diff). destruct (lookup Diff (v_data g)); [reflexivity|]. destruct (v_data r) as [|[x a0] [|[y b] l]]; try discriminate. cbn in E. injection E as -> -> _. discriminate.
    - exfalso. specialize (K DiffX). destruct (lookup DiffX (v_data g)) eqn:L; [apply (st_data _ _ ST) in L as [[L|L] _]; discriminate|]. destruct (v_data r) as [|[x a0] [|[y b] l]]; try discriminate. cbn in E. injection E as -> -> _. discriminate. }
  assert (KE : map fst (v_data r1) = map fst (v_data r2)).
  { rewrite (NX g1 r1 S1 K1 R1), (NX g2 r2 S2 K2 R2). destruct (lookup Diff (v_data g1)), (lookup Diff (v_data g2)); try reflexivity; exfalso; [destruct SD as [_ SD]; discriminate (SD eq_refl)|destruct SD as [SD _]; discriminate (SD eq_refl)]. }
  assert (SH : forall g r, storable s g -> (forall k, match lookup k (v_data g) with None => lookup k (v_data r) = None | Some a => exists b, lookup k (v_data r) = Some b /\ arr_near a b end) -> shape_of r = Some s).
  { clear. intros g r ST K. unfold shape_of. specialize (K Total). destruct (lookup Total (v_data g)) as [a|] eqn:L; [|exfalso; apply (st_total _ _ ST L)]. destruct K as (b & -> & N & _). cbn [obnd]. rewrite N. apply (st_data _ _ ST) in L as [_ [-> _]]. reflexivity. }
  rewrite (SH g1 r1 S1 K1), (SH g2 r2 S2 K2). replace (shape_eqb (Some s) (Some s)) with true by (destruct s as [[x y] z]; cbn; now rewrite !Z.eqb_refl).
  unfold linear_sum. replace (keys_eqb (keys r1) (keys r2)) with true by (symmetry; apply keys_eqb_spec; exact KE). cbn [obnd]. eexists. split; [reflexivity|]. split; [exact F1|].
  intros k. cbn [v_data h_grid]. rewrite lookup_keys by exact KE. specialize (K1 k). specialize (K2 k). destruct (lookup k (v_data g1)) as [a1|], (lookup k (v_data g2)) as [a2|].
  - destruct K1 as (b1 & -> & N1). destruct K2 as (b2 & -> & N2). exists b1, b2, (arr_add b1 b2). split; [exact N1|]. split; [exact N2|]. split; [reflexivity|]. split; [apply N1|]. intros i j l. reflexivity.
  - rewrite K2. destruct (lookup k (v_data r1)); reflexivity.
  - rewrite K1. reflexivity.
  - rewrite K1. reflexivity.
Qed.
(** Without an output format the sum is written in the format of the first file: the one given, or the one guessed. *)
Theorem C205_format file1 file2 f h : dyn f false file1 = Some h ->
  sum root sample decodes of_cube to_cube read_hdf5 write_hdf5 file1 file2 f None = sum root sample decodes of_cube to_cube read_hdf5 write_hdf5 file1 file2 f (Some (h_format h)) /\
  match f with Some x => h_format h = x | None => detect_format decodes file1 = Some (h_format h) end.
Proof.
  intros E. split; [unfold sum; rewrite E; reflexivity|]. unfold from_dynamic in E. destruct f as [x|]; [|destruct (detect_format decodes file1) as [x|]; [|discriminate]]; cbn [obnd] in E; (destruct (read_as _ _ _ _ _ _ _); [|discriminate]); injection E as <-; reflexivity.
Qed.
End Reading.

(** ** What is lost *)
Definition plain_of_cube (g : cgrid) : vgrid := VGrid (c_matrix g) (map (fun '(z, v) => (lit "Li", v)) (c_sites g)) [(Total, c_total g)] [].
Definition plain_to_cube (g : vgrid) : cgrid := CGrid (v_matrix g) [] (row_grid 2 (fun i => inject_Z i)).
Definition two_spins : vgrid := VGrid unit_mat one_atom [(Total, row_grid 2 (fun i => inject_Z i)); (Diff, row_grid 2 (fun i => inject_Z i))] [].
Definition all_text (t : text) : bool := true.
(** C204: a conversion to the same format drops the difference of the spins. *)
Theorem C204_spin_refuted root sample : exists g g' out, lookup Diff (v_data g) <> None /\
  from_dynamic root sample all_text plain_of_cube (fun _ => None) None false (write_vasp false g) = Some (Held Vasp g') /\ lookup Diff (v_data g') <> None /\
  convert root sample all_text plain_of_cube plain_to_cube (fun _ => None) (fun _ => []) (write_vasp false g) Vasp None = Some out /\
  exists g'', from_dynamic root sample all_text plain_of_cube (fun _ => None) None false out = Some (Held Vasp g'') /\ lookup Diff (v_data g'') = None.
Proof.
  exists two_spins. eexists. eexists. split; [discriminate|]. split; [vm_compute; reflexivity|]. split; [discriminate|]. split; [vm_compute; reflexivity|]. eexists. split; [vm_compute; reflexivity|]. reflexivity.
Qed.
(** C206: the result of regridding is a VASP file unless a format is asked for. *)
Theorem C206_vasp root sample decodes of_cube to_cube rh wh zoom file input out : regrid root sample decodes of_cube to_cube rh wh zoom file input None = Some out -> exists g, out = write_vasp false g.
Proof. unfold regrid. destruct (from_dynamic _ _ _ _ _ _ _ _) as [h|]; [|discriminate]. cbn [obnd]. intros E. injection E as <-. eexists. reflexivity. Qed.
Definition small_cube : cgrid := CGrid unit_mat [(3, (0, 0, 0)%Q)] (Arr (1, 1, 1) (fun _ _ _ => 1%Q)).
Theorem C206_format_refuted root : exists file out, detect_format all_text file = Some Cube /\
  regrid root (fun l => l) all_text plain_of_cube plain_to_cube (fun _ => None) (fun _ => []) (fun a => a) file None None = Some out /\ detect_format all_text out = Some Vasp.
Proof. exists (fst (write_cube small_cube None None)). eexists. split; [vm_compute; reflexivity|]. split; [vm_compute; reflexivity|]. vm_compute. reflexivity. Qed.

(** ** Names of files *)
Lemma span_none p t : stops p t -> span p t = ([], t).
Proof. intros S. exact (span_app p [] t (Forall_nil _) S). Qed.
Lemma stem_dot s e : s <> [] -> e <> [] -> ~ In "."%char e -> stem_suffix (s ++ "."%char :: e) = (s, "."%char :: e).
Proof.
  intros S E N. unfold stem_suffix. rewrite rev_app_distr. cbn [rev]. rewrite <- app_assoc. cbn [app]. rewrite span_app.
  - destruct (rev e) eqn:R; [apply (f_equal (@rev _)) in R; rewrite rev_involutive in R; contradiction|]. destruct (rev s) eqn:T; [apply (f_equal (@rev _)) in T; rewrite rev_involutive in T; contradiction|]. cbn [is_nil orb]. rewrite <- R, <- T, !rev_involutive. reflexivity.
  - apply Forall_forall. intros c I. apply in_rev in I. unfold not_dot. destruct (Ascii.eqb_spec c "."); [subst; contradiction|reflexivity].
  - reflexivity.
Qed.
Lemma stem_plain s : ~ In "."%char s -> stem_suffix s = (s, []).
Proof.
  intros N. unfold stem_suffix. rewrite <- (app_nil_r (rev s)), span_app; [reflexivity| |exact I]. apply Forall_forall. intros c J. apply in_rev in J. unfold not_dot. destruct (Ascii.eqb_spec c "."); [subst; contradiction|reflexivity].
Qed.
Lemma mem_spec c cs : mem c cs = true <-> In c cs.
Proof. unfold mem. rewrite existsb_exists. split; [intros (x & I & E); apply Ascii.eqb_eq in E; now subst|]. intros I. exists c. split; [exact I|apply Ascii.eqb_refl]. Qed.
Lemma strip_between cs o m c : Forall (fun x => In x cs) o -> Forall (fun x => In x cs) c -> (forall a u, m = a :: u -> ~ In a cs) -> (forall a u, m = u ++ [a] -> ~ In a cs) -> m <> [] -> strip_chars cs (o ++ m ++ c) = m.
Proof.
  intros O C H T N. unfold strip_chars. assert (M : forall x, In x cs -> mem x cs = true) by (intros; now apply mem_spec).
  assert (MF : forall x, ~ In x cs -> mem x cs = false) by (intros x X; destruct (mem x cs) eqn:Q; [apply mem_spec in Q; contradiction|reflexivity]).
  rewrite span_app; [|eapply Forall_impl; [|exact O]; auto|destruct m as [|a m]; [contradiction|]; cbn; apply MF; now apply (H a m)]. cbn [snd]. rewrite rev_app_distr.
  rewrite span_app; [cbn [snd]; apply rev_involutive|apply Forall_forall; intros x X; apply in_rev in X; rewrite Forall_forall in C; auto|].
  destruct (rev m) as [|a u] eqn:R; [exact I|]. cbn. apply MF. apply (T a (rev u)). rewrite <- (rev_involutive m), R. reflexivity.
Qed.

(** C207: the two spins go to the stem with "_up" and "_down", if the stem does not begin or end with a character of the
    suffix; a name without full stops is kept whole. *)
Theorem C207_names a s z e : ~ In "."%char e -> e <> [] -> ~ In a ("."%char :: e) -> ~ In z ("."%char :: e) -> forall stem, stem = a :: s -> last stem a = z ->
  split_names (stem ++ "."%char :: e) = (stem ++ lit "_up" ++ "."%char :: e, stem ++ lit "_down" ++ "."%char :: e).
Proof.
  intros N E A Z0 stem -> L. unfold split_names. rewrite stem_dot by (assumption || discriminate). cbn [snd].
  rewrite <- (app_nil_l (_ ++ "."%char :: e)). rewrite strip_between; [reflexivity|constructor|apply Forall_forall; auto| |  |discriminate].
  - intros b u Q. injection Q as <- _. exact A.
  - intros b u Q. rewrite Q in L. rewrite last_last in L. now subst.
Qed.
Theorem C207_plain name : ~ In "."%char name -> split_names name = (name ++ lit "_up", name ++ lit "_down").
Proof.
  intros N. unfold split_names. rewrite stem_plain by exact N. cbn [snd]. replace (strip_chars [] name) with name; [now rewrite !app_nil_r|].
  unfold strip_chars. rewrite (span_none _ name) by (destruct name; [exact I|reflexivity]). cbn [snd]. rewrite span_none by (destruct (rev name); [exact I|reflexivity]). cbn [snd]. now rewrite rev_involutive.
Qed.
Theorem C207_distinct name : fst (split_names name) <> snd (split_names name).
Proof. unfold split_names. cbn [fst snd]. intros E. apply app_inv_head in E. apply (f_equal (@length _)) in E. rewrite !app_length in E. cbn [lit list_ascii_of_string length] in E. lia. Qed.
(** C208: in general characters of the stem go missing, and the file itself may be overwritten. *)
Theorem C208_stem_refuted : exists s e, ~ In "."%char e /\ split_names (s ++ "."%char :: e) <> (s ++ lit "_up" ++ "."%char :: e, s ++ lit "_down" ++ "."%char :: e) /\ fst (split_names (s ++ "."%char :: e)) = lit "in_up.vasp".
Proof. exists (lit "spin"), (lit "vasp"). split; [cbn; intuition discriminate|]. split; [vm_compute; congruence|reflexivity]. Qed.
Theorem C208_overwritten_refuted : exists name, fst (split_names name) = name.
Proof. exists (lit "a_up._up"). reflexivity. Qed.
(** C209: a regridded file goes to the stem with "_regrid", never to the file read. *)
Theorem C209_name s e : s <> [] -> e <> [] -> ~ In "."%char e -> regrid_name (s ++ "."%char :: e) = s ++ lit "_regrid".
Proof. intros S E N. unfold regrid_name. now rewrite stem_dot. Qed.
Theorem C209_plain name : ~ In "."%char name -> regrid_name name = name ++ lit "_regrid".
Proof. intros N. unfold regrid_name. now rewrite stem_plain. Qed.
Lemma stem_suffix_app name : fst (stem_suffix name) ++ snd (stem_suffix name) = name /\ (snd (stem_suffix name) = [] \/ exists e, snd (stem_suffix name) = "."%char :: e).
Proof.
  unfold stem_suffix. pose proof (span_spec not_dot (rev name)) as S. destruct (span not_dot (rev name)) as [e [|d s]]; [split; [apply app_nil_r|auto]|]. destruct S as (A & _ & T). cbn in T.
  destruct (is_nil e || is_nil s); [split; [apply app_nil_r|auto]|]. cbn [fst snd]. assert (d = "."%char) as -> by (unfold not_dot in T; destruct (Ascii.eqb_spec d "."); [assumption|discriminate]).
  split; [|eauto]. rewrite <- (rev_involutive name), A, rev_app_distr. cbn [rev]. now rewrite <- app_assoc.
Qed.
Theorem C209_other name : regrid_name name <> name.
Proof.
  unfold regrid_name. destruct (stem_suffix_app name) as [A B]. intros E. rewrite <- A in E at 2. apply app_inv_head in E. destruct B as [B|[e B]]; rewrite B in E; discriminate.
Qed.

(** ** Arguments *)
(** Text with neither commas nor brackets and without white space around it. *)
Definition item (w : text) : Prop := w <> [] /\ strip w = w /\ ~ In ","%char w /\ ~ In "["%char w /\ ~ In "]"%char w.
Definition brackets (t : text) : Prop := Forall (fun c => In c (lit "[] ")) t.
Lemma strip_spaces k t : strip (repeat space k ++ t) = strip t.
Proof.
  unfold strip. do 2 f_equal. induction k as [|k IH]; [reflexivity|]. cbn [repeat app]. unfold drop_space in *. cbn [span]. replace (is_space space) with true by reflexivity. rewrite <- IH. now destruct (span is_space (repeat space k ++ t)).
Qed.
Lemma split_comma_word w t : ~ In ","%char w -> split_comma (w ++ t) = match split_comma t with x :: r => (w ++ x) :: r | [] => [w] end.
Proof.
  induction w as [|c w IH]; intros N; [cbn; destruct t as [|d t]; [reflexivity|]; cbn; destruct (Ascii.eqb d ","); [reflexivity|]; destruct (split_comma t); reflexivity|].
  cbn [app split_comma]. destruct (Ascii.eqb_spec c ","); [exfalso; apply N; now left|]. rewrite IH by (intros X; apply N; now right). now destruct (split_comma t).
Qed.
Lemma split_joined k w ws : Forall (fun w => ~ In ","%char w) (w :: ws) -> split_comma (join (","%char :: repeat space k) (w :: ws)) = w :: map (fun w => repeat space k ++ w) ws.
Proof.
  revert w. induction ws as [|v ws IH]; intros w F.
  - cbn [join map]. rewrite <- (app_nil_r w), split_comma_word by (now apply Forall_inv in F). cbn. reflexivity.
  - change (join (","%char :: repeat space k) (w :: v :: ws)) with (w ++ ","%char :: repeat space k ++ join (","%char :: repeat space k) (v :: ws)).
    rewrite split_comma_word by (now apply Forall_inv in F). cbn [split_comma]. replace (Ascii.eqb "," ",") with true by reflexivity. cbv iota beta. rewrite app_nil_r. f_equal.
    rewrite split_comma_word; [|intros X; apply repeat_spec in X; discriminate]. rewrite IH by (now apply Forall_inv_tail in F). reflexivity.
Qed.
Lemma stripped_ends w : strip w = w -> (forall a u, w = a :: u -> is_space a = false) /\ (forall a u, w = u ++ [a] -> is_space a = false).
Proof.
  assert (D : forall t, stops is_space (drop_space t)). { intros t. unfold drop_space. pose proof (span_spec is_space t) as S. destruct (span is_space t) as [a b]. apply S. }
  assert (L : forall t, (length (drop_space t) <= length t)%nat). { intros t. unfold drop_space. pose proof (span_spec is_space t) as S. destruct (span is_space t) as [a b]. destruct S as [-> _]. cbn. rewrite app_length. lia. }
  assert (Q : forall t, length (drop_space t) = length t -> drop_space t = t). { intros t. unfold drop_space. pose proof (span_spec is_space t) as S. destruct (span is_space t) as [a b]. destruct S as [-> _]. cbn. rewrite app_length. intros X. destruct a; [reflexivity|cbn in X; lia]. }
  intros E. unfold strip in E. pose proof (f_equal (@length _) E) as EL. rewrite rev_length in EL. pose proof (L (rev (drop_space w))) as L1. rewrite rev_length in L1. pose proof (L w) as L2.
  assert (W1 : drop_space w = w) by (apply Q; lia). rewrite W1 in *. assert (W2 : drop_space (rev w) = rev w) by (apply Q; rewrite rev_length; lia).
  split.
  - intros a u ->. pose proof (D (a :: u)) as S. rewrite W1 in S. exact S.
  - intros a u ->. pose proof (D (rev (u ++ [a]))) as S. rewrite W2, rev_app_distr in S. exact S.
Qed.
Lemma join_ends k w ws : Forall item (w :: ws) -> let m := join (","%char :: repeat space k) (w :: ws) in m <> [] /\ (forall a u, m = a :: u -> ~ In a (lit "[] ")) /\ (forall a u, m = u ++ [a] -> ~ In a (lit "[] ")).
Proof.
  revert w. induction ws as [|v ws IH]; intros w F; pose proof (Forall_inv F) as (N & St & _ & B1 & B2); destruct (stripped_ends w St) as [H T].
  - cbn. split; [exact N|]. split; intros a u E I; cbn in I.
    + specialize (H a u E). subst w. destruct I as [<-|[<-|[<-|[]]]]; [apply B1; now left|apply B2; now left|discriminate H].
    + specialize (T a u E). subst w. destruct I as [<-|[<-|[<-|[]]]]; [apply B1; apply in_app_iff; right; now left|apply B2; apply in_app_iff; right; now left|discriminate T].
  - destruct (IH v (Forall_inv_tail F)) as (N' & _ & T'). set (m' := join (","%char :: repeat space k) (v :: ws)) in *. intros m. change m with (w ++ (","%char :: repeat space k) ++ m'). split; [destruct w; [contradiction|discriminate]|]. split.
    + intros a u E I; cbn in I. destruct w as [|b w]; [contradiction|]. cbn in E. injection E as <- _. specialize (H b w eq_refl). destruct I as [<-|[<-|[<-|[]]]]; [apply B1; now left|apply B2; now left|discriminate H].
    + intros a u E. destruct (exists_last N') as (u' & a' & E'). apply (T' a u'). rewrite E' in *. rewrite !app_assoc in E. apply app_inj_tail in E as [_ ->]. reflexivity.
Qed.
(** C210: a list in brackets, separated by commas and any number of blanks, is read as its entries: as integers if all of
    them are integers, and as names otherwise. *)
Theorem C210_items o c k ws : brackets o -> brackets c -> ws <> [] -> Forall item ws ->
  parse_indices (o ++ join (","%char :: repeat space k) ws ++ c) = match map_opt py_int ws with Some l => Ints l | None => Names ws end.
Proof.
  intros O C N F. destruct ws as [|w ws]; [contradiction|]. destruct (join_ends k w ws F) as (NE & H & T). unfold parse_indices. rewrite strip_between by assumption. rewrite split_joined by (eapply Forall_impl; [|exact F]; intros x X; apply X).
  assert (E : map_opt py_int (w :: map (fun w => repeat space k ++ w) ws) = map_opt py_int (w :: ws)).
  { cbn [map_opt]. destruct (py_int w); [|reflexivity]. replace (map_opt py_int (map (fun w0 => repeat space k ++ w0) ws)) with (map_opt py_int ws); [reflexivity|]. clear. induction ws as [|v ws IH]; [reflexivity|]. cbn [map map_opt]. unfold py_int at 3. rewrite strip_spaces. fold (py_int v). now rewrite IH. }
  etransitivity; [exact (f_equal (fun o => match o with Some l => Ints l | None => Names (map strip (w :: map (fun w => repeat space k ++ w) ws)) end) E)|]. cbv beta. destruct (map_opt py_int (w :: ws)) as [l|]; [reflexivity|]. f_equal. cbn [map]. pose proof (Forall_inv F) as (_ & -> & _). f_equal. apply Forall_inv_tail in F. clear - F. induction F as [|v ws (_ & V & _) F IH]; [reflexivity|]. cbn [map]. now rewrite strip_spaces, V, IH.
Qed.
Lemma digits_all d : Forall isd d -> forall b, b = true \/ d <> [] -> digits b d = Some d.
Proof. induction 1 as [|c d C F IH]; intros b B; [destruct B as [->|B]; [reflexivity|contradiction]|]. cbn. rewrite C. now rewrite IH by auto. Qed.
Lemma word_strip w : word w -> strip w = w.
Proof. intros W. unfold strip. rewrite (drop_word w W). rewrite drop_word; [apply rev_involutive|]. destruct W as [N F]. split; [intros E; apply N; now apply (f_equal (@rev _)) in E; rewrite rev_involutive in E|]. apply Forall_forall. intros c I. apply in_rev in I. rewrite Forall_forall in F. auto. Qed.
Lemma py_int_str n : py_int (str_int n) = Some n.
Proof.
  unfold py_int. rewrite word_strip by apply str_int_word. pose proof (int_of_str n) as E. unfold int_of in E. destruct (sign (str_int n)) as [s d]. destruct d as [|c d]; [discriminate|]. cbn [is_nil] in E. destruct (forallb is_digit (c :: d)) eqn:B; [|discriminate].
  rewrite digits_all; [exact E| |right; discriminate]. apply Forall_forall. intros x X. rewrite forallb_forall in B. now apply B.
Qed.
Lemma str_item n : item (str_int n).
Proof.
  assert (NI : forall x, is_digit x = false -> x <> "-"%char -> ~ In x (str_int n)).
  { intros x D M. unfold str_int. destruct (n <? 0) eqn:S.
    - intros [X|X]; [congruence|]. pose proof (dec_digits (- n) ltac:(lia)) as F. rewrite Forall_forall in F. apply F in X. congruence.
    - intros X. pose proof (dec_digits n ltac:(lia)) as F. rewrite Forall_forall in F. apply F in X. congruence. }
  split; [apply str_int_word|]. split; [apply word_strip, str_int_word|]. repeat split; apply NI; (reflexivity || discriminate).
Qed.
Theorem C210_integers o c k l : brackets o -> brackets c -> l <> [] -> parse_indices (o ++ join (","%char :: repeat space k) (map str_int l) ++ c) = Ints l.
Proof.
  intros O C N. rewrite C210_items; [|exact O|exact C|destruct l; [contradiction|discriminate]|apply Forall_map, Forall_forall; intros n _; apply str_item].
  replace (map_opt py_int (map str_int l)) with (Some l); [reflexivity|]. clear. induction l as [|n l IH]; [reflexivity|]. cbn [map map_opt]. now rewrite py_int_str, <- IH.
Qed.
Theorem C210_calls o c k l : brackets o -> brackets c -> l <> [] -> let t := o ++ join (","%char :: repeat space k) (map str_int l) ++ c in
  run_calls (Some SelAtoms) t = [WriteAtoms (map Index l)] /\ run_calls (Some SumAtoms) t = [WriteAtomsSum (map Index l)] /\ run_calls (Some SelBasins) t = [WriteBasins (map Index l)] /\ run_calls (Some SumBasins) t = [WriteBasinsSum (map Index l)] /\
  run_calls (Some AllAtoms) t = [WriteAllAtoms] /\ run_calls (Some AllBasins) t = [WriteAllBasins] /\ run_calls None t = [].
Proof. intros O C N t. unfold run_calls. unfold t. rewrite C210_integers by assumption. cbn [entries]. repeat split. Qed.
Theorem C210_species o c k ws : brackets o -> brackets c -> ws <> [] -> Forall item ws -> (exists w, In w ws /\ py_int w = None) ->
  run_calls (Some SelSpec) (o ++ join (","%char :: repeat space k) ws ++ c) = map (fun w => WriteSpecies (Name w)) ws.
Proof.
  intros O C N F (w & I & W). unfold run_calls. rewrite C210_items by assumption. replace (map_opt py_int ws) with (@None (list Z)); [cbn [entries]; apply map_map|].
  clear - I W. induction ws as [|v ws IH]; [contradiction|]. cbn [map_opt]. destruct I as [->|I]; [now rewrite W|]. rewrite <- IH by exact I. now destruct (py_int v).
Qed.
(** Only integer literals are integers: a sign, then groups of digits with single underscores between them. *)
Definition groups (l : list text) : Prop := l <> [] /\ Forall (fun g => g <> [] /\ Forall isd g) l.
Lemma digits_groups t : forall d, (digits true t = Some d -> exists u r, t = u ++ r /\ Forall isd u /\ (r = [] /\ d = u \/ exists l, groups l /\ r = "_"%char :: join ["_"%char] l /\ d = u ++ List.concat l)) /\
  (digits false t = Some d -> exists l, groups l /\ t = join ["_"%char] l /\ d = List.concat l).
Proof.
  induction t as [|c t IH]; intros d; (split; [intros E|intros E]); cbn in E; [injection E as <-; exists [], []; auto|discriminate| |].
  - destruct (is_digit c) eqn:C.
    + destruct (digits true t) as [d'|] eqn:T; [|discriminate]. injection E as <-. destruct (proj1 (IH d') eq_refl) as (u & r & -> & U & R). exists (c :: u), r. split; [reflexivity|]. split; [now constructor|]. destruct R as [[-> ->]|(l & G & -> & ->)]; [left; auto|right; exists l; auto].
    + destruct (Ascii.eqb_spec c "_") as [->|]; [|discriminate]. destruct (proj2 (IH d) E) as (l & G & -> & ->). exists [], ("_"%char :: join ["_"%char] l). split; [reflexivity|]. split; [constructor|]. right. exists l. auto.
  - destruct (is_digit c) eqn:C; [|discriminate]. destruct (digits true t) as [d'|] eqn:T; [|discriminate]. injection E as <-. destruct (proj1 (IH d') eq_refl) as (u & r & -> & U & R).
    destruct R as [[-> ->]|(l & [N G] & -> & ->)].
    + exists [c :: u]. split; [split; [discriminate|repeat constructor; [discriminate|exact C|exact U]]|]. cbn. now rewrite !app_nil_r.
    + exists ((c :: u) :: l). split; [split; [discriminate|constructor; [split; [discriminate|now constructor]|exact G]]|]. destruct l; [contradiction|]. split; reflexivity.
Qed.
Theorem C210_literal w z : py_int w = Some z -> exists s l, groups l /\ strip w = s ++ join ["_"%char] l /\
  ((s = [] \/ s = ["+"%char]) /\ z = number (List.concat l) \/ s = ["-"%char] /\ z = - number (List.concat l)).
Proof.
  unfold py_int. intros E. assert (S : exists s r, sign (strip w) = (r, snd (sign (strip w))) /\ strip w = s ++ snd (sign (strip w)) /\ ((s = [] \/ s = ["+"%char]) /\ r = 1 \/ s = ["-"%char] /\ r = -1)).
  { destruct (strip w) as [|[[] [] [] [] [] [] [] []] t]; first [now exists [], 1; cbn; auto 6|now exists ["+"%char], 1; cbn; auto 6|now exists ["-"%char], (-1); cbn; auto 6]. }
  destruct S as (s & r & SE & SW & SR). rewrite SE in E. destruct (digits false (snd (sign (strip w)))) as [d|] eqn:D; [|discriminate]. injection E as <-. apply digits_groups in D as (l & G & J & ->). exists s, l. split; [exact G|]. split; [now rewrite <- J|].
  destruct SR as [[A ->]|[A ->]]; [left|right]; (split; [exact A|lia]).
Qed.
(** C211: without indices one entry is selected, an empty name. *)
Theorem C211_none_refuted : exists e, run_calls (Some SelAtoms) [] = [WriteAtoms [e]] /\ run_calls (Some SelSpec) [] = [WriteSpecies e] /\ e = Name [].
Proof. exists (Name []). repeat split. Qed.

(** C212: a tolerance is the number given; the words for yes and no are the two flags, and nothing else is accepted. *)
Definition yes_no (w : text) (b : bool) : Prop := In w (map lit (if b then ["true"; "t"; "yes"; "y"] else ["false"; "f"; "no"; "n"])%string).
Lemma one_of_spec t l : one_of t l = true <-> In t (map lit l).
Proof. unfold one_of. rewrite existsb_exists, in_map_iff. split; intros (x & A & B); exists x; [apply text_eqb_spec in B; auto|split; [auto|now apply text_eqb_spec]]. Qed.
Theorem C212_flag t b : float_or_bool t = Some (Flag b) <-> yes_no (map lower t) b.
Proof.
  unfold float_or_bool, yes_no. destruct (one_of (map lower t) ["true"; "t"; "yes"; "y"]%string) eqn:Y.
  - apply one_of_spec in Y. destruct b; [tauto|]. split; [discriminate|]. intros X. exfalso. cbn in X, Y. repeat (destruct Y as [Y|Y]; [rewrite <- Y in X; repeat (destruct X as [X|X]; [discriminate|]); exact X|]). exact Y.
  - assert (NY : ~ In (map lower t) (map lit ["true"; "t"; "yes"; "y"]%string)) by (intros X; apply one_of_spec in X; congruence).
    destruct (one_of (map lower t) ["false"; "f"; "no"; "n"]%string) eqn:W.
    + apply one_of_spec in W. destruct b; [split; [discriminate|tauto]|tauto].
    + assert (NW : ~ In (map lower t) (map lit ["false"; "f"; "no"; "n"]%string)) by (intros X; apply one_of_spec in X; congruence). destruct (float_of (strip t)); cbn [obnd]; (split; [discriminate|destruct b; tauto]).
Qed.
(** A word is taken whatever the case of its letters. *)
Definition same_letter (a b : ascii) : Prop := a = b \/ 97 <= code b <= 122 /\ code a = code b - 32.
Theorem C212_case t w b : yes_no w b -> Forall2 same_letter t w -> float_or_bool t = Some (Flag b).
Proof.
  intros Y F. apply C212_flag. replace (map lower t) with w; [exact Y|].
  assert (L : forall c, In c w -> 97 <= code c <= 122). { intros c I. assert (D : Forall (fun w => forallb (fun c => (97 <=? code c) && (code c <=? 122)) w = true) (map lit (if b then ["true"; "t"; "yes"; "y"] else ["false"; "f"; "no"; "n"])%string)) by (destruct b; repeat constructor). rewrite Forall_forall in D. specialize (D w Y). rewrite forallb_forall in D. specialize (D c I). lia. }
  clear Y. induction F as [|x y t w S F IH]; [reflexivity|]. cbn [map]. rewrite <- IH by (intros c I; apply L; now right). f_equal. specialize (L y (or_introl eq_refl)). unfold lower.
  destruct S as [->|[R E]].
  - destruct (Z.leb_spec 65 (code y)), (Z.leb_spec (code y) 90); cbn [andb]; (reflexivity || lia).
  - rewrite E. destruct (Z.leb_spec 65 (code y - 32)), (Z.leb_spec (code y - 32) 90); cbn [andb]; try lia. replace (code y - 32 + 32) with (code y) by lia. unfold code. rewrite Nat2Z.id. symmetry. apply ascii_nat_embedding.
Qed.
Theorem C212_number t q : (forall b, ~ yes_no (map lower t) b) -> (float_or_bool t = Some (Number q) <-> float_of (strip t) = Some q).
Proof.
  intros N. unfold float_or_bool. destruct (one_of (map lower t) ["true"; "t"; "yes"; "y"]%string) eqn:Y; [apply one_of_spec in Y; destruct (N true Y)|]. destruct (one_of (map lower t) ["false"; "f"; "no"; "n"]%string) eqn:W; [apply one_of_spec in W; destruct (N false W)|].
  destruct (float_of (strip t)); cbn [obnd]; split; congruence.
Qed.

(** ** Examples *)
Example C202_ex : detect_format all_text (write_vasp false two_spins) = Some Vasp /\ detect_format all_text (fst (write_cube small_cube None None)) = Some Cube /\
  detect_format all_text (lit "short") = None /\ detect_format (fun _ => false) (signature ++ lit "x") = Some Hdf5.
Proof. vm_compute. auto. Qed.
Lemma two_spins_storable : storable (2, 1, 1) two_spins.
Proof.
  assert (G : good_arr (2, 1, 1) (row_grid 2 (fun i => inject_Z i))).
  { split; [reflexivity|]. intros i j k I _ _. cbn [row_grid a_at]. assert (C : i = 0 \/ i = 1) by lia. destruct C; subst i; [left; reflexivity|]. right. exists 1. split; [lia|]. split; [split; vm_compute; congruence|reflexivity]. }
  split; cbn [v_matrix v_sites v_data v_aug two_spins unit_mat one_atom].
  - cbn. repeat split; unfold small; cbn; reflexivity.
  - constructor; [|constructor]. split; [split; [|cbn; lia]|]. + split; [discriminate|]. repeat constructor. + cbn. repeat split; reflexivity.
  - cbn. lia.
  - lia.
  - discriminate.
  - intros k a. cbn. destruct k; cbn; try discriminate; intros E; injection E as <-; split; auto.
  - intros k ls. cbn. discriminate.
Qed.
Example C205_ex root sample : exists out g, sum root sample all_text plain_of_cube plain_to_cube (fun _ => None) (fun _ => []) (write_vasp false two_spins) (write_vasp false two_spins) None None = Some out /\
  read_vasp root false out = Some g /\ exists d, lookup Diff (v_data g) = Some d /\ (a_at d 1 0 0 == 2)%Q.
Proof. eexists. eexists. split; [vm_compute; reflexivity|]. split; [vm_compute; reflexivity|]. eexists. split; [reflexivity|]. reflexivity. Qed.
Example C207_ex : split_names (lit "CHGCAR.dat") = (lit "CHGCAR_up.dat", lit "CHGCAR_down.dat") /\ split_names (lit "CHGCAR") = (lit "CHGCAR_up", lit "CHGCAR_down") /\ regrid_name (lit "a.b.cube") = lit "a.b_regrid".
Proof. vm_compute. auto. Qed.
Example C210_ex : parse_indices (lit "[1, -2,30]") = Ints [1; -2; 30] /\ parse_indices (lit "[Na, 2 ,1_0]") = Names [lit "Na"; lit "2"; lit "1_0"] /\ parse_indices (lit "1_0") = Ints [10] /\
  run_calls (Some SelSpec) (lit "Na,Cl") = [WriteSpecies (Name (lit "Na")); WriteSpecies (Name (lit "Cl"))] /\ run_calls (Some SumBasins) (lit "[3]") = [WriteBasinsSum [Index 3]].
Proof. vm_compute. auto. Qed.
Example C212_ex : float_or_bool (lit "Yes") = Some (Flag true) /\ float_or_bool (lit "F") = Some (Flag false) /\ float_or_bool (lit "maybe") = None /\
  exists q, float_or_bool (lit "1.0e-03") = Some (Number q) /\ (q == 1 # 1000)%Q.
Proof. split; [reflexivity|]. split; [reflexivity|]. split; [reflexivity|]. eexists. split; [vm_compute; reflexivity|reflexivity]. Qed.
Print Assumptions C202_vasp.
Print Assumptions C202_cube.
Print Assumptions C202_hdf5.
Print Assumptions C202_binary.
Print Assumptions C202_read.
Print Assumptions C203_total.
Print Assumptions C205_sum.
Print Assumptions C205_format.
Print Assumptions C204_spin_refuted.
Print Assumptions C206_vasp.
Print Assumptions C206_format_refuted.
Print Assumptions C207_names.
Print Assumptions C207_plain.
Print Assumptions C207_distinct.
Print Assumptions C208_stem_refuted.
Print Assumptions C208_overwritten_refuted.
Print Assumptions C209_name.
Print Assumptions C209_plain.
Print Assumptions C209_other.
Print Assumptions C210_items.
Print Assumptions C210_integers.
Print Assumptions C210_calls.
Print Assumptions C210_species.
Print Assumptions C210_literal.
Print Assumptions C211_none_refuted.
Print Assumptions C212_flag.
Print Assumptions C212_case.
Print Assumptions C212_number.
