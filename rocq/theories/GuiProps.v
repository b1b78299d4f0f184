(** Properties of the tabs of the window. *)
From Coq Require Import QArith Lia Ascii String FinFun.
From Verif Require Import Base GridModel ChargeModel NearModel RefineModel CoordModel TextModel VaspModel StructModel ViewModel CliModel
  ViewProps GuiModel.
Local Open Scope Z_scope.

(** ** Boxes *)
Lemma filter_range {A} (f : A -> bool) (l : list A) k i :
  In i (map fst (filter (fun '(_, x) => f x) (combine (seq k (List.length l)) l))) <-> (k <= i)%nat /\ exists x, nth_error l (i - k) = Some x /\ f x = true.
Proof.
  revert k i. induction l as [|x l IH]; intros k i; cbn [List.length seq combine filter map].
  - split; [intros []|]. intros (_ & x & E & _). destruct (i - k)%nat; discriminate E.
  - assert (R : In i (map fst (filter (fun '(_, x) => f x) (combine (seq (S k) (List.length l)) l))) <-> (S k <= i)%nat /\ exists y, nth_error (x :: l) (i - k) = Some y /\ f y = true).
    { rewrite IH. split; intros (L & y & E & F); (split; [lia|]; exists y; split; [|exact F]); replace (i - k)%nat with (S (i - S k))%nat in * by lia; exact E. }
    destruct (f x) eqn:Fx; cbn [map fst].
    + cbn [In]. rewrite R. split.
      * intros [<-|(L & K)]; [|split; [lia|exact K]]. split; [lia|]. exists x. rewrite Nat.sub_diag. auto.
      * intros (L & y & E & F). destruct (Nat.eq_dec k i) as [->|N]; [now left|right]. split; [lia|eauto].
    + rewrite R. split; intros (L & y & E & F); (split; [|eauto]).
      * lia.
      * destruct (Nat.eq_dec k i) as [<-|N]; [|lia]. rewrite Nat.sub_diag in E. cbn in E. congruence.
Qed.
Lemma owned_spec owner p i : In i (owned owner p) <-> nth_error owner i = Some p.
Proof.
  unfold owned. rewrite filter_range. rewrite Nat.sub_0_r. split.
  - intros (_ & x & E & F). apply Nat.eqb_eq in F as ->. exact E.
  - intros E. split; [lia|]. exists p. split; [exact E|apply Nat.eqb_refl].
Qed.
Lemma checked_map bs : checked bs = map Z.of_nat (map fst (filter (fun '(_, b) => b) (combine (seq 0 (List.length bs)) bs))).
Proof.
  unfold checked. generalize 0%nat. induction bs as [|b bs IH]; intros k; [reflexivity|]. cbn [List.length seq map combine filter snd]. destruct b; cbn [map fst]; now rewrite IH.
Qed.
Lemma checked_spec bs i : In i (checked bs) <-> 0 <= i /\ nth_error bs (Z.to_nat i) = Some true.
Proof.
  rewrite checked_map, in_map_iff. split.
  - intros (n & <- & I). apply (filter_range (fun b : bool => b)) in I as (_ & x & E & F). rewrite Nat.sub_0_r in E. rewrite Nat2Z.id. split; [lia|congruence].
  - intros [B E]. exists (Z.to_nat i). split; [lia|]. apply (filter_range (fun b : bool => b)). split; [lia|]. exists true. rewrite Nat.sub_0_r. auto.
Qed.
Lemma nodup_range {A} (f : A -> bool) (l : list A) k : NoDup (map fst (filter (fun '(_, x) => f x) (combine (seq k (List.length l)) l))).
Proof.
  revert k. induction l as [|x l IH]; intros k; [constructor|]. cbn [List.length seq combine filter]. destruct (f x); cbn [map fst]; [|apply IH]. constructor; [|apply IH]. intros I. apply filter_range in I. lia.
Qed.
Lemma checked_nodup bs : NoDup (checked bs).
Proof.
  rewrite checked_map. apply FinFun.Injective_map_NoDup; [intros x y E; lia|]. apply (nodup_range (fun b : bool => b) bs 0).
Qed.
Definition in_step (s : boxes) : Prop := shown s = checked (children s).
Lemma set_checked_step v i s : in_step s -> in_step (set_checked v i s).
Proof. unfold set_checked. destruct (nth_error _ _); auto. destruct (Bool.eqb _ _); auto. intros _. reflexivity. Qed.
Lemma set_checked_children v i s j : nth_error (children (set_checked v i s)) j =
  if Nat.eqb i j && Nat.ltb j (List.length (children s)) then Some v else nth_error (children s) j.
Proof.
  unfold set_checked. destruct (nth_error (children s) i) as [old|] eqn:E.
  - destruct (Bool.eqb old v) eqn:Q; cbn [children].
    + apply Bool.eqb_prop in Q as ->. destruct (Nat.eqb_spec i j) as [<-|]; [|reflexivity]. rewrite E. now destruct (_ && _).
    + rewrite nth_error_upd. destruct (Nat.eqb_spec i j) as [<-|]; reflexivity.
  - destruct (Nat.eqb_spec i j) as [<-|]; [|reflexivity]. apply nth_error_None in E. replace (Nat.ltb i _) with false by (symmetry; apply Nat.ltb_ge; exact E). reflexivity.
Qed.
Lemma set_checked_rest v i s : parents (set_checked v i s) = parents s /\ List.length (children (set_checked v i s)) = List.length (children s).
Proof. unfold set_checked. destruct (nth_error _ _); auto. destruct (Bool.eqb _ _); auto. cbn. split; [reflexivity|apply upd_length]. Qed.
Lemma fold_checked v l s : let s' := fold_left (fun s i => set_checked v i s) l s in
  (in_step s -> in_step s') /\ parents s' = parents s /\
  forall j, nth_error (children s') j = if existsb (Nat.eqb j) l && Nat.ltb j (List.length (children s)) then Some v else nth_error (children s) j.
Proof.
  revert s. induction l as [|i l IH]; intros s; cbn [fold_left existsb].
  - cbv zeta. cbn [andb]. auto.
  - specialize (IH (set_checked v i s)). destruct (set_checked_rest v i s) as [P L]. cbv zeta in IH. rewrite P in IH. destruct IH as (A & B & C). cbv zeta. split; [intros I; apply A, set_checked_step, I|]. split; [exact B|].
    intros j. rewrite C, L, set_checked_children. rewrite (Nat.eqb_sym i j). destruct (Nat.ltb j _), (Nat.eqb j i), (existsb _ l); reflexivity.
Qed.
Lemma clicked_step owner s c : in_step s -> in_step (clicked owner s c).
Proof.
  intros I. destruct c as [p|i]; cbn [clicked].
  - destruct (nth_error (parents s) p); [|exact I]. apply fold_checked. exact I.
  - destruct (nth_error (children s) i); [|exact I]. now apply set_checked_step.
Qed.
Lemma clicks_step owner cs s : in_step s -> in_step (fold_left (clicked owner) cs s).
Proof. revert s. induction cs as [|c cs IH]; intros s I; [exact I|]. apply IH, clicked_step, I. Qed.
(** What is shown is what is ticked. *)
Definition shows_ticked (s : boxes) : Prop :=
  NoDup (shown s) /\ forall b, In b (shown s) <-> 0 <= b /\ nth_error (children s) (Z.to_nat b) = Some true.
Lemma step_shows s : in_step s -> shows_ticked s.
Proof. intros I. unfold shows_ticked. rewrite I. split; [apply checked_nodup|intros b; apply checked_spec]. Qed.
(** C244: whatever is clicked in whatever order, the plotter shows exactly the basins whose boxes are ticked. *)
Theorem C244_basins atoms basin_atoms start : basin_boxes atoms basin_atoms = Some start ->
  forall clicks, shows_ticked (fold_left (clicked basin_atoms) clicks start).
Proof.
  intros E clicks. apply step_shows, clicks_step. unfold basin_boxes in E. destruct (forallb _ _); [|discriminate]. injection E as <-. unfold in_step. cbn [shown children]. clear. unfold initial_basins, checked. rewrite !map_length. change (seq 0) with (seq (0 + 0)). generalize (0 + 0)%nat.
  induction basin_atoms as [|a l IH]; intros k; [reflexivity|]. cbn [List.length seq map combine filter snd]. replace (Z.of_nat a =? 0) with (Nat.eqb a 0) by (destruct a; reflexivity). destruct (Nat.eqb a 0); cbn [map fst]; now rewrite IH.
Qed.
Theorem C244_start atoms basin_atoms : Forall (fun a => a < atoms)%nat basin_atoms -> exists start, basin_boxes atoms basin_atoms = Some start /\
  (forall a, nth_error (parents start) a = Some true <-> a = 0%nat /\ (0 < atoms)%nat) /\ (forall i, nth_error (children start) i = Some true <-> nth_error basin_atoms i = Some 0%nat).
Proof.
  intros F. eexists. unfold basin_boxes. replace (forallb _ _) with true.
  2:{ symmetry. apply forallb_forall. intros x I. apply Nat.ltb_lt. revert x I. now apply Forall_forall. }
  split; [reflexivity|]. cbn [parents children]. split.
  - intros a. rewrite nth_error_map. destruct (Nat.lt_ge_cases a atoms) as [L|L].
    + rewrite nth_error_seq by exact L. cbn. destruct a; cbn; split; try (intros _; split; [reflexivity|lia]); try discriminate; try reflexivity. intros [K _]. lia.
    + replace (nth_error (seq 0 atoms) a) with (@None nat) by (symmetry; apply nth_error_None; now rewrite seq_length). cbn. split; [discriminate|]. lia.
  - intros i. rewrite nth_error_map. destruct (nth_error basin_atoms i) as [[|a]|]; cbn; split; congruence.
Qed.
Theorem C244_atoms species symbols clicks : shows_ticked (fold_left (clicked symbols) clicks (atom_boxes species symbols)).
Proof.
  apply step_shows, clicks_step. unfold in_step, atom_boxes, checked. cbn [shown children]. rewrite repeat_length. generalize 0%nat. induction (List.length symbols) as [|n IH]; intros k; [reflexivity|]. cbn [seq map repeat combine filter snd fst]. f_equal. apply IH.
Qed.
(** A click on the box of an atom gives all its basins the new state of the box, and changes no other. *)
Theorem C244_parent owner s p v : nth_error (parents s) p = Some v -> let s' := clicked owner s (Parent p) in
  (forall q, nth_error (parents s') q = if Nat.eqb q p then Some (negb v) else nth_error (parents s) q) /\
  (forall i, nth_error owner i = Some p -> (i < List.length (children s))%nat -> nth_error (children s') i = Some (negb v)) /\
  (forall i, nth_error owner i <> Some p -> nth_error (children s') i = nth_error (children s) i).
Proof.
  intros E. cbv zeta. cbn [clicked]. rewrite E. destruct (fold_checked (negb v) (owned owner p) {| parents := upd (parents s) p (negb v); children := children s; shown := shown s |}) as (_ & B & C). rewrite B. cbn [parents children] in *. split; [|split].
  - intros q. rewrite nth_error_upd. rewrite (Nat.eqb_sym p q). destruct (Nat.eqb_spec q p) as [->|]; [|reflexivity]. replace (Nat.ltb p (List.length (parents s))) with true by (symmetry; apply Nat.ltb_lt, nth_error_Some; congruence). reflexivity.
  - intros i O L. rewrite C. replace (existsb _ _) with true; [now replace (Nat.ltb i _) with true by (symmetry; now apply Nat.ltb_lt)|]. symmetry. apply existsb_exists. exists i. split; [now apply owned_spec|apply Nat.eqb_refl].
  - intros i O. rewrite C. replace (existsb _ _) with false; [reflexivity|]. symmetry. destruct (existsb _ _) eqn:X; [|reflexivity]. apply existsb_exists in X as (j & I & K). apply Nat.eqb_eq in K as <-. apply owned_spec in I. contradiction.
Qed.
Theorem C244_child owner s i v : nth_error (children s) i = Some v -> let s' := clicked owner s (Child i) in
  parents s' = parents s /\ forall j, nth_error (children s') j = if Nat.eqb j i then Some (negb v) else nth_error (children s) j.
Proof.
  intros E. cbv zeta. cbn [clicked]. rewrite E. split; [apply set_checked_rest|]. intros j. rewrite set_checked_children, (Nat.eqb_sym i j). destruct (Nat.eqb_spec j i) as [->|]; [|reflexivity]. replace (Nat.ltb i _) with true by (symmetry; apply Nat.ltb_lt, nth_error_Some; congruence). reflexivity.
Qed.
Example C244_ex : option_map (fun s => let s := fold_left (clicked [0; 1; 0; 1]%nat) [Child 2; Parent 1; Parent 0; Child 0] s in (parents s, children s, shown s))
  (basin_boxes 2 [0; 1; 0; 1]%nat) = Some ([false; true], [true; true; false; true], [0; 1; 3]).
Proof. reflexivity. Qed.

(** ** Radii and colours *)
Definition fits (v : Z) : Prop := 1 <= v <= 1000.
Lemma fit_fits v : fits (fit v). Proof. unfold fits, fit. lia. Qed.
Lemma fold_upd {A} (v : A) l (r : list A) j : nth_error (fold_left (fun l a => upd l a v) l r) j =
  if existsb (Nat.eqb j) l && Nat.ltb j (List.length r) then Some v else nth_error r j.
Proof.
  revert r. induction l as [|i l IH]; intros r; [reflexivity|]. cbn [fold_left existsb]. rewrite IH, upd_length, nth_error_upd. rewrite (Nat.eqb_sym i j). destruct (Nat.eqb_spec j i) as [->|]; destruct (Nat.ltb _ _), (existsb _ l); reflexivity.
Qed.
Lemma owned_exists owner p i : existsb (Nat.eqb i) (owned owner p) = true <-> nth_error owner i = Some p.
Proof.
  rewrite existsb_exists, <- owned_spec. split; [intros (j & I & K); apply Nat.eqb_eq in K as <-; exact I|]. intros I. exists i. split; [exact I|apply Nat.eqb_refl].
Qed.
(** C245: once a value is committed the plotter holds the radii of the boxes, all of them between 0.01 and 10. *)
Theorem C245_commit owner start events : Forall fits (sp_atoms start) -> let s := fold_left (spun owner) (events ++ [Commit])%list start in
  radii s = Some (sp_atoms s) /\ Forall fits (sp_atoms s) /\ List.length (sp_atoms s) = List.length (sp_atoms start).
Proof.
  intros F. cbv zeta. rewrite fold_left_app. cbn [fold_left spun radii sp_atoms]. split; [reflexivity|].
  assert (U : forall l a v, Forall fits l -> Forall fits (upd l a (fit v))).
  { intros l a v H. apply Forall_forall. intros x I. apply In_nth_error in I as (j & E). rewrite nth_error_upd in E. destruct (Nat.eqb a j && Nat.ltb a _); [injection E as <-; apply fit_fits|apply nth_error_In in E; revert x E; now apply Forall_forall]. }
  revert start F. induction events as [|e events IH]; intros start F; [split; auto|]. cbn [fold_left].
  assert (K : Forall fits (sp_atoms (spun owner start e)) /\ List.length (sp_atoms (spun owner start e)) = List.length (sp_atoms start)).
  { destruct e as [s v|a v|]; cbn [spun sp_atoms].
    - destruct (nth_error _ _); [|auto]. destruct (_ =? _); [auto|]. cbn [sp_atoms]. generalize (sp_atoms start) F. induction (owned owner s) as [|a l IHl]; intros r R; [auto|]. cbn [fold_left]. destruct (IHl (upd r a (fit (fit v))) (U _ _ _ R)) as [X Y]. rewrite upd_length in Y. auto.
    - split; [now apply U|apply upd_length].
    - auto. }
  destruct K as [K1 K2]. destruct (IH _ K1) as [X Y]. split; [exact X|congruence].
Qed.
(** A new value for a species is given to all its atoms, brought into the range, and to no other. *)
Theorem C245_species owner st s old v : nth_error (sp_species st) s = Some old -> fit v <> old -> let st' := spun owner st (SpeciesValue s v) in
  (forall a, nth_error owner a = Some s -> (a < List.length (sp_atoms st))%nat -> nth_error (sp_atoms st') a = Some (Z.max 1 (Z.min 1000 v))) /\
  (forall a, nth_error owner a <> Some s -> nth_error (sp_atoms st') a = nth_error (sp_atoms st) a).
Proof.
  intros E N. cbv zeta. cbn [spun]. rewrite E. apply Z.eqb_neq in N. rewrite N. cbn [sp_atoms].
  assert (R : fit (fit v) = Z.max 1 (Z.min 1000 v)) by (unfold fit; lia). rewrite R. split; intros a O; [intros L|]; rewrite fold_upd.
  - replace (existsb _ _) with true by (symmetry; now apply owned_exists). now replace (Nat.ltb a _) with true by (symmetry; now apply Nat.ltb_lt).
  - destruct (existsb _ _) eqn:X; [apply owned_exists in X; contradiction|reflexivity].
Qed.
(** The colours: the plotter holds those of the boxes as soon as one was set. *)
Theorem C245_colors {C} owner (start : paints C) events : let s := fold_left (painted owner) events start in
  colors start = None \/ colors start = Some (pt_atoms start) -> (colors s = None /\ pt_atoms s = pt_atoms start) \/ colors s = Some (pt_atoms s).
Proof.
  cbv zeta. intros H. assert (A : forall l c (st : paints C), (colors st = None \/ colors st = Some (pt_atoms st)) ->
      let s := fold_left (paint_atom c) l st in (colors s = colors st /\ pt_atoms s = pt_atoms st) \/ colors s = Some (pt_atoms s)).
  { induction l as [|a l IH]; intros c st K; [now left|]. cbn [fold_left]. destruct (IH c (paint_atom c st a)) as [[X Y]|X]; [right; reflexivity| |right; exact X]. right. rewrite X, Y. reflexivity. }
  revert start H. induction events as [|e events IH]; intros start H; cbn [fold_left]; [destruct H; auto|].
  assert (B : (colors (painted owner start e) = colors start /\ pt_atoms (painted owner start e) = pt_atoms start) \/ colors (painted owner start e) = Some (pt_atoms (painted owner start e))).
  { destruct e as [s c|a c]; cbn [painted]; [|right; reflexivity]. apply (A (owned owner s) c {| pt_species := upd (pt_species start) s c; pt_atoms := pt_atoms start; colors := colors start |}). exact H. }
  destruct B as [[B1 B2]|B].
  - destruct (IH (painted owner start e)) as [[X Y]|X]; [rewrite B1, B2; exact H| |now right]. left. split; [exact X|congruence].
  - destruct (IH (painted owner start e)) as [[X Y]|X]; [now right| |now right].
    right. exfalso. revert X. assert (S : forall es (st : paints C), colors st <> None -> colors (fold_left (painted owner) es st) <> None).
    { clear. assert (P : forall l c (st : paints C), colors st <> None -> colors (fold_left (paint_atom c) l st) <> None) by (induction l as [|a l IH]; intros c st K; [exact K|]; cbn [fold_left]; apply IH; discriminate).
      induction es as [|e es IH]; intros st K; [exact K|]. cbn [fold_left]. apply IH. destruct e; cbn [painted]; [apply P; exact K|discriminate]. }
    apply S. rewrite B. discriminate.
Qed.
Theorem C245_species_color {C} owner (st : paints C) s c : let st' := painted owner st (SpeciesColor s c) in
  (forall a, nth_error owner a = Some s -> (a < List.length (pt_atoms st))%nat -> nth_error (pt_atoms st') a = Some c /\ colors st' = Some (pt_atoms st')) /\
  (forall a, nth_error owner a <> Some s -> nth_error (pt_atoms st') a = nth_error (pt_atoms st) a).
Proof.
  cbv zeta. cbn [painted]. set (st0 := {| pt_species := _; pt_atoms := _; colors := _ |}).
  assert (P : forall l (st : paints C), pt_atoms (fold_left (paint_atom c) l st) = fold_left (fun l a => upd l a c) l (pt_atoms st)) by (induction l as [|a l IH]; intros q; [reflexivity|]; cbn [fold_left]; now rewrite IH).
  assert (Q : forall l (st : paints C), l <> [] -> colors (fold_left (paint_atom c) l st) = Some (pt_atoms (fold_left (paint_atom c) l st))).
  { induction l as [|a l IH]; intros q N; [contradiction|]. destruct l as [|b l]; [reflexivity|]. cbn [fold_left] in *. apply (IH (paint_atom c q a)). discriminate. }
  split; intros a O; [intros L; split|].
  - rewrite P, fold_upd. replace (existsb _ _) with true by (symmetry; now apply owned_exists). cbn [pt_atoms]. now replace (Nat.ltb a _) with true by (symmetry; now apply Nat.ltb_lt).
  - apply Q. apply owned_spec in O. intros E. rewrite E in O. exact O.
  - rewrite P, fold_upd. destruct (existsb _ _) eqn:X; [apply owned_exists in X; contradiction|reflexivity].
Qed.
Example C245_ex : let s := fold_left (spun [0; 1; 0]%nat) [AtomValue 0 70; SpeciesValue 0 2000; AtomValue 2 0; Commit] {| sp_species := [100; 50]; sp_atoms := [100; 50; 100]; radii := None |} in
  (sp_species s, radii s) = ([1000; 50], Some [1000; 50; 1]).
Proof. reflexivity. Qed.
(** C246: the radius committed for a species need not be that of its atoms: nothing is sent if the box held it already. *)
Theorem C246_same_refuted : exists owner start events s v, let st := fold_left (spun owner) (events ++ [SpeciesValue s v; Commit])%list start in
  fits v /\ nth_error (sp_species st) s = Some v /\ nth_error owner 0 = Some s /\ radii st = Some [200] /\ v = 100.
Proof. exists [0%nat], {| sp_species := [100]; sp_atoms := [100]; radii := None |}, [AtomValue 0 200; Commit], 0%nat, 100. cbn. unfold fits. repeat split; lia. Qed.

(** ** Running *)
(** C247: after an edit the button can be pressed exactly if both paths exist, where no text is the current directory. *)
Definition file (t : text) : text := if list_eq_dec Ascii.ascii_dec t [] then list_ascii_of_string "." else t.
Lemma path_file t : path t = file t.
Proof. destruct t; reflexivity. Qed.
Theorem C247_edit exists_ s t : t <> charge_text s -> let s' := happens exists_ s (EditCharge t) in
  charge_text s' = t /\ (enabled s' = true <-> exists_ (file t) = true /\ exists_ (file (reference_text s)) = true).
Proof.
  intros N. cbv zeta. cbn [happens]. destruct (list_eq_dec _ _ _) as [E|_]; [contradiction|]. cbn. rewrite !path_file, Bool.orb_false_r, Bool.andb_true_iff. tauto.
Qed.
Theorem C247_edit_reference exists_ s t : t <> reference_text s -> let s' := happens exists_ s (EditReference t) in
  reference_text s' = t /\ (enabled s' = true <-> exists_ (file (charge_text s)) = true /\ exists_ (file t) = true).
Proof.
  intros N. cbv zeta. cbn [happens]. destruct (list_eq_dec _ _ _) as [E|_]; [contradiction|]. cbn. rewrite !path_file, Bool.orb_false_r, Bool.andb_true_iff. tauto.
Qed.
(** Nothing fails, and nothing is edited while a run is going on. *)
Fixpoint calm (running : bool) (hs : list happening) : Prop :=
  match hs with
  | [] => True
  | Failed :: _ => False
  | (EditCharge _ | EditReference _) :: r => running = false /\ calm false r
  | Finished :: r => calm false r
  | Press :: r => calm true r
  end.
Theorem C247_calm exists_ hs : calm false hs -> let s := fold_left (happens exists_) hs tab_start in
  dropped s = false /\ (thread s = true -> enabled s = false).
Proof.
  assert (G : forall hs s running, calm running hs -> dropped s = false -> (thread s = true -> enabled s = false /\ running = true) ->
    let s' := fold_left (happens exists_) hs s in dropped s' = false /\ (thread s' = true -> enabled s' = false)).
  { clear hs. induction hs as [|h hs IH]; intros s running H D T; cbv zeta; cbn [fold_left]; [split; [exact D|intros K; now apply T]|].
    destruct h as [t|t| | |]; cbn [calm] in H.
    - destruct H as [-> H]. apply (IH _ false H); cbn [happens]; destruct (list_eq_dec _ _ _); auto. cbn. intros K. destruct (T K); discriminate.
    - destruct H as [-> H]. apply (IH _ false H); cbn [happens]; destruct (list_eq_dec _ _ _); auto. cbn. intros K. destruct (T K); discriminate.
    - apply (IH _ true H); cbn [happens]; destruct (enabled s) eqn:E; cbn; auto.
      + rewrite D. cbn. destruct (thread s); [destruct (T eq_refl); congruence|reflexivity].
    - apply (IH _ false H); cbn [happens]; destruct (thread s) eqn:E; cbn; auto; try discriminate. rewrite E. discriminate.
    - destruct H. }
  intros H. apply (G hs tab_start false H); [reflexivity|discriminate].
Qed.
Example C247_ex : let ex t := if list_eq_dec Ascii.ascii_dec t (list_ascii_of_string "a") then true else if list_eq_dec Ascii.ascii_dec t (list_ascii_of_string ".") then true else false in
  let hs := [EditCharge (list_ascii_of_string "a"); Press; Finished; EditReference (list_ascii_of_string "b"); EditReference []; Press] in
  calm false hs /\ enabled (fold_left (happens ex) (firstn 4 hs) tab_start) = false /\ enabled (fold_left (happens ex) (firstn 5 hs) tab_start) = true /\
  let s := fold_left (happens ex) hs tab_start in (enabled s, thread s, dropped s) = (false, true, false).
Proof. cbn. repeat split. Qed.
(** C248: the button can be pressed without a charge file, if the current directory exists. *)
Theorem C248_blank_refuted : exists exists_ hs, let s := fold_left (happens exists_) hs tab_start in charge_text s = [] /\ enabled s = true.
Proof. exists (fun _ => true), [EditCharge (list_ascii_of_string "a"); EditCharge []]. split; reflexivity. Qed.
(** C249: after an error the thread goes on, and the next run drops it while it runs; so does an edit during a run. *)
Theorem C249_error_refuted : forall exists_ s, enabled s = true -> thread s = false -> dropped s = false ->
  let s1 := fold_left (happens exists_) [Press; Failed] s in enabled s1 = true /\ thread s1 = true /\ dropped (happens exists_ s1 Press) = true.
Proof. intros exists_ s E T D. cbn. rewrite E. cbn. rewrite T, D. auto. Qed.
Example C249_ex : let s := happens (fun _ => true) tab_start (EditCharge (list_ascii_of_string "a")) in (enabled s, thread s, dropped s) = (true, false, false).
Proof. reflexivity. Qed.
Theorem C249_edit_refuted : exists exists_ hs, let s := fold_left (happens exists_) hs tab_start in
  thread s = true /\ enabled s = true /\ dropped (happens exists_ s Press) = true.
Proof. exists (fun _ => true), [EditCharge (list_ascii_of_string "a"); Press; EditReference (list_ascii_of_string "b")]. cbn. auto. Qed.

(** ** Export *)
(** C250: the values written are those of the reference where the basin is visible, and 0 elsewhere. *)
Theorem C250_values chosen filename selected charge reference labels visible name f out :
  List.length labels = List.length reference ->
  export_basins chosen filename selected charge reference labels visible = Some (name, f, out) ->
  List.length out = List.length reference /\ forall i b v, nth_error labels i = Some b -> nth_error reference i = Some v ->
    (In b visible -> nth_error out i = Some v) /\ (~ In b visible -> nth_error out i = Some 0%Q).
Proof.
  intros L E. assert (O : out = map (fun '(b, v) => if isin visible b then v else 0%Q) (combine labels reference)).
  { revert E. unfold export_basins. cbn [method_equals_text]. destruct (match filename with [] => None | _ => _ end) as [[n e]|]; [|discriminate]. destruct (format_of _); [|discriminate]. intros E. injection E as _ _ <-. reflexivity. }
  subst out. split; [rewrite map_length, combine_length; lia|]. intros i b v B V. rewrite nth_error_map, (nth_combine labels reference i b v B V). cbn.
  assert (I : isin visible b = true <-> In b visible) by (unfold isin; rewrite existsb_exists; split; [intros (x & X & Y); apply Z.eqb_eq in Y as ->; exact X|intros X; exists b; split; [exact X|apply Z.eqb_refl]]).
  destruct (isin visible b); split; intros K; auto; [exfalso; apply K; now apply I|apply I in K; discriminate].
Qed.
(** A name without a dot gets the ending of the chosen filter and is written in that format. *)
Theorem C250_named chosen filename selected charge reference labels visible : filename <> [] -> ~ In "."%char filename ->
  exists out, export_basins chosen filename selected charge reference labels visible =
    Some ((filename ++ list_ascii_of_string (match selected with Vasp => ".vasp" | Cube => ".cube" | Hdf5 => ".hdf5" end))%list, selected, out).
Proof.
  intros N D. unfold export_basins. assert (H : has_dot filename = false). { destruct (has_dot filename) eqn:E; [|reflexivity]. apply existsb_exists in E as (c & I & K). apply Ascii.eqb_eq in K as <-. contradiction. }
  destruct filename as [|c r]; [contradiction|]. rewrite H. cbn [negb]. destruct selected; eexists; reflexivity.
Qed.
(** A name that ends in a known ending, after a name of its own, is written in that format whatever filter is chosen. *)
Lemma take_until_app c a b : ~ In c a -> take_until c (a ++ c :: b)%list = (a, Some b).
Proof.
  induction a as [|x a IH]; intros N; cbn [app take_until]; [now rewrite Ascii.eqb_refl|]. destruct (Ascii.eqb_spec x c) as [->|_]; [exfalso; apply N; now left|]. rewrite IH; [reflexivity|]. intros I. apply N. now right.
Qed.
Lemma take_until_none c a : ~ In c a -> take_until c a = (a, None).
Proof. induction a as [|x a IH]; intros N; [reflexivity|]. cbn [take_until]. destruct (Ascii.eqb_spec x c) as [->|_]; [exfalso; apply N; now left|]. rewrite IH; [reflexivity|]. intros I. apply N. now right. Qed.
Theorem C250_ending chosen directory stem e selected charge reference labels visible : stem <> [] -> ~ In "/"%char stem ->
  (directory = [] \/ exists d, directory = (d ++ ["/"%char])%list) ->
  let filename := (directory ++ stem ++ list_ascii_of_string (match e with Vasp => ".vasp" | Cube => ".cube" | Hdf5 => ".hdf5" end))%list in
  exists out, export_basins chosen filename selected charge reference labels visible = Some (filename, e, out).
Proof.
  intros S N D. cbv zeta. set (dot := list_ascii_of_string _). assert (X : exists w, dot = "."%char :: w /\ w <> [] /\ ~ In "."%char w /\ ~ In "/"%char w /\ format_of (strip_dots ("."%char :: w)) = Some e).
  { destruct e; (eexists; split; [reflexivity|]; split; [discriminate|]; split; [|split; [|reflexivity]]; cbn; intros K; repeat destruct K as [K|K]; try discriminate K; exact K). }
  destruct X as (w & Ew & W & W1 & W2 & F). rewrite Ew. set (filename := (directory ++ stem ++ "."%char :: w)%list).
  assert (H : has_dot filename = true). { apply existsb_exists. exists "."%char. split; [|reflexivity]. unfold filename. apply in_or_app. right. apply in_or_app. right. now left. }
  assert (L : last_component filename = (stem ++ "."%char :: w)%list).
  { assert (N2 : ~ In "/"%char (rev (stem ++ "."%char :: w))). { intros I. apply in_rev in I. apply in_app_or in I as [I|[I|I]]; [contradiction|discriminate|contradiction]. }
    unfold last_component, filename. destruct D as [->|(d & ->)].
    - cbn [app]. rewrite take_until_none by exact N2. cbn [fst]. apply rev_involutive.
    - rewrite <- app_assoc. cbn [app]. rewrite rev_app_distr. cbn [rev]. rewrite <- app_assoc. cbn [app]. rewrite take_until_app by exact N2. cbn [fst]. apply rev_involutive. }
  assert (Sx : suffix filename = "."%char :: w).
  { unfold suffix. rewrite L, rev_app_distr. cbn [rev]. rewrite <- app_assoc. cbn [app]. rewrite take_until_app by (intros I; apply in_rev in I; contradiction).
    destruct (rev w) as [|x r] eqn:R; [exfalso; apply W; apply (f_equal (@rev ascii)) in R; now rewrite rev_involutive in R|]. destruct (rev stem) as [|y q] eqn:Q; [exfalso; apply S; apply (f_equal (@rev ascii)) in Q; now rewrite rev_involutive in Q|]. rewrite <- R, rev_involutive. reflexivity. }
  unfold export_basins. rewrite H, Sx. cbn [negb]. clearbody filename. destruct filename as [|c r]; [discriminate H|]. rewrite F. eexists. reflexivity.
Qed.
Example C250_ex : export_basins Reference (list_ascii_of_string "d.1/x.cube") Vasp [5; 6; 7]%Q [1; 2; 3]%Q [0; 1; 0] [0] =
  Some (list_ascii_of_string "d.1/x.cube", Cube, [1; 0; 3]%Q).
Proof. reflexivity. Qed.
(** C251: the charge is never written, although it is what is chosen at first. *)
Theorem C251_charge_refuted : forall filename selected charge reference labels visible,
  export_basins Charge filename selected charge reference labels visible = export_basins Reference filename selected charge reference labels visible.
Proof. reflexivity. Qed.
Theorem C251_witness_refuted : exists charge reference labels visible name f out,
  export_basins Charge (list_ascii_of_string "a") Vasp charge reference labels visible = Some (name, f, out) /\
  nth_error labels 0 = Some 0 /\ In 0 visible /\ nth_error charge 0 = Some 1%Q /\ nth_error out 0 = Some 2%Q.
Proof. exists [1%Q], [2%Q], [0], [0]. do 3 eexists. split; [reflexivity|]. cbn. auto. Qed.
(** C252: a dialog that is cancelled raises, and so does a name without an ending in a directory with a dot. *)
Theorem C252_cancel_refuted : forall chosen selected charge reference labels visible,
  export_basins chosen [] selected charge reference labels visible = None.
Proof. reflexivity. Qed.
Theorem C252_directory_refuted : exists directory stem, ~ In "."%char stem /\ stem <> [] /\ forall chosen selected charge reference labels visible,
  export_basins chosen (directory ++ stem)%list selected charge reference labels visible = None.
Proof. exists (list_ascii_of_string "a.b/"), (list_ascii_of_string "c"). split; [|split]; [cbn; intros [K|K]; [discriminate|exact K]|discriminate|reflexivity]. Qed.

Print Assumptions C244_basins.
Print Assumptions C244_start.
Print Assumptions C244_atoms.
Print Assumptions C244_parent.
Print Assumptions C244_child.
Print Assumptions C245_commit.
Print Assumptions C245_species.
Print Assumptions C245_colors.
Print Assumptions C245_species_color.
Print Assumptions C246_same_refuted.
Print Assumptions C247_edit.
Print Assumptions C247_edit_reference.
Print Assumptions C247_calm.
Print Assumptions C248_blank_refuted.
Print Assumptions C249_error_refuted.
Print Assumptions C249_edit_refuted.
Print Assumptions C250_values.
Print Assumptions C250_named.
Print Assumptions C250_ending.
Print Assumptions C251_charge_refuted.
Print Assumptions C251_witness_refuted.
Print Assumptions C252_cancel_refuted.
Print Assumptions C252_directory_refuted.
