(** Properties of the symmetry of bonds. *)
From Coq Require Import QArith Qround Lqa Lia Permutation.
From Verif Require Import Base ChargeModel NearModel NearSpec NearProofs RootsModel RootsProofs RefineModel RefineProofs PlaneModel CoordProofs InterpProofs EnvModel EnvProps BondModel.
Local Open Scope Z_scope.

(** ** Displacements *)
Lemma py_round_opp q : py_round (- q) = - py_round q.
Proof.
  apply (nearest_even_fun (- q) (- q) _ _ (Qeq_refl _) (py_round_spec (- q))). destruct (py_round_spec q) as [A B]. unfold nearest_even. rewrite inject_Z_opp. split; [lra|]. intros C. rewrite Z.even_opp. apply B. destruct C as [C|C]; [right|left]; lra.
Qed.
Lemma unround_opp x : (unround (- x) == - unround x)%Q.
Proof. unfold unround. rewrite py_round_opp, inject_Z_opp. ring. Qed.
Lemma unround_comp x y : (x == y -> unround x == unround y)%Q.
Proof. intros E. unfold unround. rewrite (py_round_comp _ _ E), E. reflexivity. Qed.
Definition opp3 (c : chunk) : chunk := let '(x, y, z) := c in (- x, - y, - z).
Lemma chunk_of_comp tol u v : veq u v -> chunk_of tol u = chunk_of tol v.
Proof. destruct u as [[x y] z], v as [[a b] c]. cbn. intros (A & B & C). f_equal; [f_equal|]; apply py_round_comp; [rewrite A|rewrite B|rewrite C]; reflexivity. Qed.
Lemma chunk_of_opp tol u v : veq u (vopp v) -> chunk_of tol u = opp3 (chunk_of tol v).
Proof. intros E. rewrite (chunk_of_comp tol _ _ E). destruct v as [[x y] z]. cbn. f_equal; [f_equal|]; rewrite <- py_round_opp; apply py_round_comp; unfold Qdiv; ring. Qed.
Lemma lex_positive_opp c : lex_positive (opp3 c) = lex_positive c.
Proof.
  destruct c as [[x y] z]. unfold lex_positive, opp3. destruct (Z.ltb_spec x 0), (Z.ltb_spec (- x) 0), (Z.eqb_spec x 0), (Z.eqb_spec (- x) 0); try lia; cbn [orb andb]; rewrite ?Z.opp_involutive; try reflexivity;
    destruct (Z.ltb_spec y 0), (Z.ltb_spec (- y) 0), (Z.eqb_spec y 0), (Z.eqb_spec (- y) 0); try lia; cbn [orb andb]; rewrite ?Z.opp_involutive; try reflexivity;
    destruct (Z.ltb_spec z 0), (Z.ltb_spec (- z) 0); try lia; rewrite ?Z.opp_involutive; try reflexivity. subst. f_equal. lia.
Qed.
(** C115: a displacement and its opposite have one representative, *)
Theorem C115_opposite d e tol : veq e (vopp d) -> get_canonical_displacement e tol = get_canonical_displacement d tol.
Proof.
  intros E. unfold get_canonical_displacement. rewrite <- (lex_positive_opp (chunk_of tol (vmap unround d))). f_equal. apply chunk_of_opp. destruct d as [[x y] z], e as [[a b] c]. cbn in *. destruct E as (A & B & C). repeat split; (etransitivity; [apply unround_comp; eassumption|]; apply unround_opp).
Qed.
(** so have displacements that differ by a lattice vector, unless a component is half a lattice vector; *)
Definition not_half (x : Q) : Prop := ~ (x - inject_Z (Qfloor x) == 1 # 2)%Q.
Theorem C115_translated x y z a b c e tol : not_half x -> not_half y -> not_half z -> veq e (x + inject_Z a, y + inject_Z b, z + inject_Z c)%Q ->
  get_canonical_displacement e tol = get_canonical_displacement (x, y, z) tol.
Proof.
  intros X Y Z0 E. unfold get_canonical_displacement. f_equal. apply chunk_of_comp. destruct e as [[e1 e2] e3]. cbn in *. destruct E as (A & B & C). repeat split; (etransitivity; [apply unround_comp; eassumption|]; unfold unround; rewrite py_round_shift by assumption; rewrite inject_Z_plus; ring).
Qed.
Lemma quant_close u tol : (0 < tol -> - (tol / 2) <= inject_Z (py_round (u / tol)) * tol - u <= tol / 2)%Q.
Proof.
  intros T. destruct (py_round_spec (u / tol)) as [A _]. set (k := inject_Z (py_round _)) in *. clearbody k. assert (E : (u == u / tol * tol)%Q) by (field; lra). set (w := (u / tol)%Q) in *. clearbody w. assert (H2 : (tol / 2 == (1 # 2) * tol)%Q) by field. rewrite H2, E.
  assert (B1 : (0 <= (k - w + (1 # 2)) * tol)%Q) by (apply Qmult_le_0_compat; lra). assert (B2 : (0 <= (w - k + (1 # 2)) * tol)%Q) by (apply Qmult_le_0_compat; lra). split; [setoid_replace (k * tol - w * tol)%Q with ((k - w + (1 # 2)) * tol - (1 # 2) * tol)%Q by ring|setoid_replace (k * tol - w * tol)%Q with ((1 # 2) * tol - (w - k + (1 # 2)) * tol)%Q by ring]; lra.
Qed.
(** the first nonzero number is positive, and the representative is the displacement, moved by lattice vectors into
    [-1/2, 1/2] and possibly reversed, to within half of the tolerance. *)
Theorem C115_close d tol : (0 < tol)%Q -> let '(p, q, r) := get_canonical_displacement d tol in
  (0 < p \/ (p = 0 /\ (0 < q \/ (q = 0 /\ 0 <= r)))) /\
  exists s, (s = 1 \/ s = -1) /\ let '(x, y, z) := d in forall v k, In (v, k) [(x, p); (y, q); (z, r)] ->
    exists n, (- (1 # 2) <= v - inject_Z n <= 1 # 2)%Q /\ (- (tol / 2) <= inject_Z k * tol - inject_Z s * (v - inject_Z n) <= tol / 2)%Q.
Proof.
  intros T. destruct d as [[x y] z]. unfold get_canonical_displacement. cbn [vmap chunk_of].
  assert (H : forall v, exists n, (- (1 # 2) <= v - inject_Z n <= 1 # 2)%Q /\ (- (tol / 2) <= inject_Z (py_round (unround v / tol)) * tol - (v - inject_Z n) <= tol / 2)%Q).
  { intros v. exists (py_round v). split; [destruct (py_round_spec v) as [A _]; lra|]. fold (unround v). apply quant_close, T. }
  destruct (H x) as (n1 & I1 & J1), (H y) as (n2 & I2 & J2), (H z) as (n3 & I3 & J3). clear H. set (k1 := py_round (unround x / tol)) in *. set (k2 := py_round (unround y / tol)) in *. set (k3 := py_round (unround z / tol)) in *. clearbody k1 k2 k3. unfold lex_positive. destruct ((k1 <? 0) || (k1 =? 0) && (k2 <? 0) || (k1 =? 0) && (k2 =? 0) && (k3 <? 0)) eqn:E.
  - split; [lia|]. exists (-1). split; [auto|]. intros v k [Q|[Q|[Q|[]]]]; injection Q as <- <-; [exists n1|exists n2|exists n3]; (split; [assumption|]); rewrite inject_Z_opp; change (inject_Z (-1)) with (-1)%Q; lra.
  - split; [lia|]. exists 1. split; [auto|]. intros v k [Q|[Q|[Q|[]]]]; injection Q as <- <-; [exists n1|exists n2|exists n3]; (split; [assumption|]); change (inject_Z 1) with 1%Q; lra.
Qed.

(** ** The representative of a bond *)
Definition le3 (a b : chunk) : Prop := let '(x, y, z) := a in let '(u, v, w) := b in x <= u /\ y <= v /\ z <= w.
Lemma better_spec d b : better d b = true <-> le3 d b.
Proof. destruct d as [[x y] z], b as [[u v] w]. unfold better, le3. rewrite !andb_true_iff, !negb_true_iff, !Z.gtb_ltb, !Z.ltb_ge. tauto. Qed.
Lemma le3_trans a b c : le3 a b -> le3 b c -> le3 a c.
Proof. destruct a as [[? ?] ?], b as [[? ?] ?], c as [[? ?] ?]. unfold le3. lia. Qed.
Lemma le3_refl a : le3 a a.
Proof. destruct a as [[? ?] ?]. unfold le3. lia. Qed.
Lemma le3_anti a b : le3 a b -> le3 b a -> a = b.
Proof. destruct a as [[? ?] ?], b as [[? ?] ?]. unfold le3. intros A B. f_equal; [f_equal|]; lia. Qed.
(** The representatives of the images of a bond under the included operations and of the bond itself. *)
Definition image_of (site neigh : vec) (tol : Q) (ops : list op) (included : list bool) (c : chunk) : Prop :=
  c = get_canonical_displacement (vsub neigh site) tol \/
  exists i o, nth_error ops i = Some o /\ nth_error included i = Some true /\ c = get_canonical_displacement (vsub (apply_op o neigh) (apply_op o site)) tol.
Lemma in_combine_nth {A B} (l : list A) (l' : list B) a b : In (a, b) (combine l l') <-> exists i, nth_error l i = Some a /\ nth_error l' i = Some b.
Proof.
  revert l'. induction l as [|x l IH]; intros l'; [split; [intros []|intros ([|i] & E & _); discriminate]|]. destruct l' as [|y l']; [split; [intros []|intros ([|i] & _ & E); discriminate]|]. cbn [combine In]. rewrite IH. split.
  - intros [E|(i & E)]; [injection E as <- <-; exists 0%nat; auto|exists (S i); exact E].
  - intros ([|i] & E1 & E2); [cbn in *; left; congruence|right; exists i; auto].
Qed.
Lemma try_ops_spec site neigh tol l : forall b, let img (o : op * bool) := get_canonical_displacement (vsub (apply_op (fst o) neigh) (apply_op (fst o) site)) tol in
  let r := fold_left (try_op site neigh tol) l b in
  le3 r b /\ (r = b \/ exists o, In o l /\ snd o = true /\ r = img o) /\ (forall o, In o l -> snd o = true -> le3 (img o) r -> img o = r) /\
  (forall m, le3 m b -> (forall o, In o l -> snd o = true -> le3 m (img o)) -> le3 m r).
Proof.
  induction l as [|o l IH]; intros b; cbv zeta; cbn [fold_left].
  - repeat split; [apply le3_refl|now left|intros o []|intros m M _; exact M].
  - destruct (IH (try_op site neigh tol b o)) as (A & B & C & D). cbv zeta in A, B, C, D. set (r := fold_left _ l _) in *. clearbody r. clear IH. revert A B D. unfold try_op. destruct (snd o) eqn:S.
    + destruct (better _ b) eqn:E; intros A B D.
      * apply better_spec in E. split; [now apply le3_trans with (1 := A)|]. split; [right; destruct B as [-> |(o' & I & S' & ->)]; [exists o; repeat split; [now left|exact S]|exists o'; repeat split; [now right|exact S']]|]. split.
        -- intros o' [<-|I] S' L; [now apply le3_anti|auto].
        -- intros m M H. apply D; [apply H; [now left|exact S]|intros o' I; apply H; now right].
      * assert (NE : ~ le3 (get_canonical_displacement (vsub (apply_op (fst o) neigh) (apply_op (fst o) site)) tol) b) by (rewrite <- better_spec; congruence). split; [exact A|]. split; [destruct B as [-> |(o' & I & S' & ->)]; [now left|right; exists o'; repeat split; [now right|exact S']]|]. split.
        -- intros o' [<-|I] S' L; [exfalso; apply NE; now apply le3_trans with (1 := L)|auto].
        -- intros m M H. apply D; [exact M|intros o' I; apply H; now right].
    + intros A B D. split; [exact A|]. split; [destruct B as [-> |(o' & I & S' & ->)]; [now left|right; exists o'; repeat split; [now right|exact S']]|]. split.
      * intros o' [<-|I] S' L; [congruence|auto].
      * intros m M H. apply D; [exact M|intros o' I; apply H; now right].
Qed.
Definition zero3 : vec := (0, 0, 0)%Q.
Lemma bond_disp si ni neigh fracs equiv ops included dist tol : r_disp (get_canonical_bond si ni neigh fracs equiv ops included dist tol) =
  fold_left (try_op (nth si fracs zero3) neigh tol) (combine ops included) (get_canonical_displacement (vsub neigh (nth si fracs zero3)) tol).
Proof. unfold get_canonical_bond. destruct (_ <=? _); reflexivity. Qed.
(** C115: the reported displacement is that of the bond or of an image of it under an included operation, *)
Theorem C115_image si ni neigh fracs equiv ops included dist tol :
  image_of (nth si fracs zero3) neigh tol ops included (r_disp (get_canonical_bond si ni neigh fracs equiv ops included dist tol)).
Proof.
  rewrite bond_disp. set (site := nth si fracs _). destruct (try_ops_spec site neigh tol (combine ops included) (get_canonical_displacement (vsub neigh site) tol)) as (_ & B & _). cbv zeta in B. destruct B as [-> |([o b] & I & S & ->)]; [now left|right; apply in_combine_nth in I as (i & I1 & I2); cbn in S; subst b; exists i, o; auto].
Qed.
(** no image is smaller in every component, *)
Theorem C115_minimal si ni neigh fracs equiv ops included dist tol c : image_of (nth si fracs zero3) neigh tol ops included c ->
  let r := r_disp (get_canonical_bond si ni neigh fracs equiv ops included dist tol) in le3 c r -> c = r.
Proof.
  cbv zeta. rewrite bond_disp. set (site := nth si fracs _). destruct (try_ops_spec site neigh tol (combine ops included) (get_canonical_displacement (vsub neigh site) tol)) as (A & _ & C & _). cbv zeta in A, C. intros I L. destruct I as [-> |(i & o & I1 & I2 & ->)]; [now apply le3_anti|]. apply (C (o, true)); [apply in_combine_nth; eauto|reflexivity|exact L].
Qed.
(** and if an image is smallest in every component it is the one, whatever the order of the operations. *)
Theorem C115_least si ni neigh fracs equiv ops included dist tol c : image_of (nth si fracs zero3) neigh tol ops included c ->
  (forall c', image_of (nth si fracs zero3) neigh tol ops included c' -> le3 c c') -> r_disp (get_canonical_bond si ni neigh fracs equiv ops included dist tol) = c.
Proof.
  intros I H. symmetry. apply (C115_minimal si ni neigh fracs equiv ops included dist tol c I). apply H. apply C115_image.
Qed.
(** The sites are the representatives in increasing order, exchanged if the flag is set; the length is kept to within
    half of the tolerance. *)
Theorem C115_sites si ni neigh fracs equiv ops included dist tol : let r := get_canonical_bond si ni neigh fracs equiv ops included dist tol in
  r_lo r <= r_hi r /\ (r_inv r = 0 /\ (r_lo r, r_hi r) = (nth si equiv 0, nth ni equiv 0) \/ r_inv r = 1 /\ (r_hi r, r_lo r) = (nth si equiv 0, nth ni equiv 0) /\ r_lo r < r_hi r) /\
  ((0 < tol)%Q -> (- (tol / 2) <= inject_Z (r_len r) * tol - dist <= tol / 2)%Q).
Proof.
  cbv zeta. unfold get_canonical_bond. set (d := fold_left _ _ _). clearbody d. assert (H : (0 < tol)%Q -> (- (tol / 2) <= inject_Z (py_round (dist / tol)) * tol - dist <= tol / 2)%Q).
  { intros T. apply quant_close, T. }
  destruct (Z.leb_spec (nth si equiv 0) (nth ni equiv 0)) as [L|L]; cbn [r_inv r_lo r_hi r_len]; (split; [lia|]); (split; [|exact H]); [left; auto|right; auto].
Qed.

(** ** All bonds *)
(** C115: the included operations are those that move the site onto its representative, as far as the tolerance tells. *)
Lemma chunk_eqb_spec a b : chunk_eqb a b = true <-> a = b.
Proof. destruct a as [[x y] z], b as [[u v] w]. unfold chunk_eqb. rewrite Z.eqb_eq. split; [intros H; f_equal; [f_equal|]; lia|intros E; injection E as -> -> ->; lia]. Qed.
Lemma find_chunk_spec c cs : forall j, 0 <= j -> (find_chunk c cs j = -1 /\ ~ In c cs) \/
  exists k, find_chunk c cs j = j + Z.of_nat k /\ nth_error cs k = Some c /\ forall k', (k' < k)%nat -> nth_error cs k' <> Some c.
Proof.
  induction cs as [|d cs IH]; intros j J; cbn [find_chunk]; [left; split; [reflexivity|intros []]|]. destruct (chunk_eqb c d) eqn:E.
  - apply chunk_eqb_spec in E. subst d. right. exists 0%nat. repeat split; [lia|]. intros k' K. lia.
  - assert (N : d <> c) by (intros ->; rewrite (proj2 (chunk_eqb_spec c c) eq_refl) in E; discriminate). destruct (IH (j + 1)) as [(A & B)|(k & A & B & C)]; [lia| |].
    + left. split; [exact A|]. intros [D|D]; contradiction.
    + right. exists (S k). split; [rewrite A; lia|]. split; [exact B|]. intros [|k'] K; cbn; [congruence|apply C; lia].
Qed.
(** The site found is the first one in the same cube of side [tol]. *)
Theorem C115_find fracs v tol i : find_site_in_tol (map (chunk_of tol) fracs) v tol = i <->
  (i = -1 /\ forall s, In s fracs -> chunk_of tol s <> chunk_of tol v) \/
  (0 <= i /\ (exists s, nth_error fracs (Z.to_nat i) = Some s /\ chunk_of tol s = chunk_of tol v) /\ forall k s, (k < Z.to_nat i)%nat -> nth_error fracs k = Some s -> chunk_of tol s <> chunk_of tol v).
Proof.
  unfold find_site_in_tol. destruct (find_chunk_spec (chunk_of tol v) (map (chunk_of tol) fracs) 0 ltac:(lia)) as [(A & B)|(k & A & B & C)]; rewrite A.
  - split.
    + intros <-. left. split; [reflexivity|]. intros s I E. apply B. rewrite <- E. now apply in_map.
    + intros [(-> & _)|(P & (s & E & F) & _)]; [reflexivity|]. exfalso. apply B. rewrite <- F. apply in_map. now apply nth_error_In in E.
  - rewrite nth_error_map in B. destruct (nth_error fracs k) as [s|] eqn:E; [|discriminate]. cbn in B. injection B as B. assert (C' : forall k' s', (k' < k)%nat -> nth_error fracs k' = Some s' -> chunk_of tol s' <> chunk_of tol v) by (intros k' s' K S X; apply (C k' K); rewrite nth_error_map, S; cbn; now rewrite X). split.
    + intros <-. right. rewrite Z.add_0_l, Nat2Z.id. split; [lia|]. split; [exists s; auto|exact C'].
    + intros [(-> & H)|(P & (s' & E' & F) & G)]; [exfalso; apply (H s); [now apply nth_error_In in E|exact B]|]. destruct (lt_eq_lt_dec k (Z.to_nat i)) as [[L|L]|L]; [exfalso; apply (G k s L E B)|lia|exfalso; apply (C' _ s' L E' F)].
Qed.
Theorem C115_bonds bonds fracs equiv ops tol order1 order2 i b : let unique := np_unique (map (fun b => Z.of_nat (b_site b)) bonds) in
  Permutation order1 (seq 0 (length unique)) -> Permutation order2 (seq 0 (length bonds)) -> nth_error bonds i = Some b ->
  length (get_canonical_bonds bonds fracs equiv ops tol order1 order2) = length bonds /\
  nth_error (get_canonical_bonds bonds fracs equiv ops tol order1 order2) i = Some (get_canonical_bond (b_site b) (b_neigh b) (b_coord b) fracs equiv ops
    (map (fun o => find_site_in_tol (map (chunk_of tol) fracs) (vmap mod1 (apply_op o (nth (b_site b) fracs zero3))) tol =? nth (b_site b) equiv 0) ops) (b_dist b) tol).
Proof.
  cbv zeta. intros P1 P2 E. assert (L : (i < length bonds)%nat) by (apply nth_error_Some; congruence). assert (LL : length (get_canonical_bonds bonds fracs equiv ops tol order1 order2) = length bonds) by (unfold get_canonical_bonds; now rewrite par_loop_length, repeat_length). split; [exact LL|].
  rewrite (nth_error_nth' _ (mkRep 0 0 0 (0, 0, 0) 0)) by now rewrite LL. f_equal. unfold get_canonical_bonds. rewrite par_loop_nth by now rewrite repeat_length. rewrite (in_order _ _ _ P2 L), E. cbn [option_map]. f_equal. unfold mask_row. set (u := np_unique _) in *. assert (I : In (Z.of_nat (b_site b)) u) by (apply np_unique_in; apply in_map_iff; exists b; split; [reflexivity|now apply nth_error_In in E]).
  pose proof (index_of_range _ _ I) as R. pose proof (index_of_nth _ _ I) as N. rewrite (nth_indep _ [] (repeat false (length ops))) by (rewrite par_loop_length, repeat_length; lia). rewrite par_loop_nth by (rewrite repeat_length; lia). rewrite (in_order _ _ _ P1) by lia. rewrite N. cbn [option_map]. now rewrite Nat2Z.id.
Qed.

(** ** Generated bonds *)
Definition vscale (q : Q) (v : vec) : vec := vmap (fun x => x * q)%Q v.
Lemma floor_inside x i : (0 <= x < 1)%Q -> Qfloor (x + inject_Z i) = i.
Proof.
  intros [A B]. pose proof (Qfloor_le (x + inject_Z i)) as F1. pose proof (Qlt_floor (x + inject_Z i)) as F2. rewrite inject_Z_plus in F2. change (inject_Z 1) with 1%Q in F2. set (f := Qfloor _) in *. clearbody f. assert (C1 : (inject_Z f < inject_Z (i + 1))%Q) by (rewrite inject_Z_plus; change (inject_Z 1) with 1%Q; lra). assert (C2 : (inject_Z i < inject_Z (f + 1))%Q) by (rewrite inject_Z_plus; change (inject_Z 1) with 1%Q; lra). rewrite <- Zlt_Qlt in C1, C2. lia.
Qed.
Lemma locate_spec fracs tol k s I v : NoDup (map (chunk_of tol) fracs) -> nth_error fracs k = Some s -> inside s -> veq v (vshift s I) -> locate (map (chunk_of tol) fracs) tol v = (Z.of_nat k, I).
Proof.
  intros N E IN V. assert (F : vfloor v = I). { destruct v as [[x y] z], s as [[a b] c], I as [[i j] l]. cbn in *. destruct V as (A & B & C), IN as (IA & IB & IC). rewrite (Qfloor_comp _ _ A), (Qfloor_comp _ _ B), (Qfloor_comp _ _ C), !floor_inside by assumption. reflexivity. }
  unfold locate. rewrite F. assert (G : find_site_in_tol (map (chunk_of tol) fracs) (vsubz v I) tol = Z.of_nat k).
  { assert (CH : chunk_of tol s = chunk_of tol (vsubz v I)). { apply chunk_of_comp. destruct v as [[x y] z], s as [[a b] c], I as [[i j] l]. cbn in *. destruct V as (A & B & C). repeat split; [rewrite A|rewrite B|rewrite C]; ring. }
    apply C115_find. right. rewrite Nat2Z.id. split; [lia|]. split; [exists s; auto|]. intros k' s' K E' X. assert (k' = k); [|lia]. apply (proj1 (NoDup_nth_error _) N); [rewrite map_length; apply nth_error_Some; congruence|]. rewrite !nth_error_map, E, E'. cbn. now rewrite X, <- CH. }
  rewrite G. destruct (Z.eqb_spec (Z.of_nat k) (-1)); [lia|reflexivity].
Qed.
Lemma round12_comp x y : (x == y)%Q -> round12 x = round12 y.
Proof. intros E. unfold round12. rewrite (py_round_comp (x * _) (y * inject_Z (10 ^ 12))); [reflexivity|]. now rewrite E. Qed.
Lemma vround12_comp u v : veq u v -> vround12 u = vround12 v.
Proof. destruct u as [[x y] z], v as [[a b] c]. cbn. intros (A & B & C). now rewrite (round12_comp _ _ A), (round12_comp _ _ B), (round12_comp _ _ C). Qed.
(** C116: an operation that moves the site of a bond to site [k] in cell [I] and its neighbour to site [l] in cell [J]
    yields the bond from [k] to [l] in cell [J - I]; the point that divides it is the image of the point that divides the
    given bond, moved back by [I]. *)
Theorem C116_row root fracs m tol b frac type o k l s n I J : NoDup (map (chunk_of tol) fracs) -> nth_error fracs k = Some s -> nth_error fracs l = Some n -> inside s -> inside n ->
  let site := nth (b_site b) fracs zero3 in veq (apply_op o site) (vshift s I) -> veq (apply_op o (b_coord b)) (vshift n J) ->
  exists r, sym_row root fracs m tol b frac type o = Some r /\ g_site r = Z.of_nat k /\ g_neigh r = Z.of_nat l /\ g_type r = round12 type /\
    g_coord r = vround12 (vsubz (apply_op o (b_coord b)) I) /\
    g_point r = vround12 (vsubz (apply_op o (vplus site (vscale frac (vsub (b_coord b) site)))) I) /\
    (exists w, veq w (vmat (vscale frac (vsub (vsubz (vshift n J) I) s)) m) /\ g_radius r = round12 (root (norm2 w))) /\
    exists x y z, veq (x, y, z) (vscale frac (vsub (vsubz (vshift n J) I) s)) /\
      let len := root (x * x + y * y + z * z)%Q in g_vector r = (round12 (x / len), round12 (y / len), round12 (z / len)).
Proof.
  cbv zeta. intros ND K L IS IN VS VN. unfold sym_row. fold zero3. set (site := nth (b_site b) fracs zero3) in *. rewrite (locate_spec fracs tol k s I _ ND K IS VS). destruct I as [[i1 i2] i3], J as [[j1 j2] j3].
  assert (VN' : veq (vsubz (apply_op o (b_coord b)) (i1, i2, i3)) (vshift n (j1 - i1, j2 - i2, j3 - i3))). { destruct (apply_op o (b_coord b)) as [[x y] z], n as [[a c] d]. cbn in *. destruct VN as (A & B & C). unfold Z.sub. rewrite !inject_Z_plus, !inject_Z_opp. repeat split; [rewrite A|rewrite B|rewrite C]; ring. }
  rewrite (locate_spec fracs tol l n _ _ ND L IN VN'). assert (LK : (k < length fracs)%nat) by (apply nth_error_Some; congruence). assert (LL : (l < length fracs)%nat) by (apply nth_error_Some; congruence). unfold np_get. rewrite !np_idx_pos, !Nat2Z.id, K, L by lia. eexists. split; [reflexivity|]. cbn [g_site g_neigh g_type g_coord g_point g_radius g_vector]. split; [reflexivity|]. split; [reflexivity|]. split; [reflexivity|]. split; [|split; [|split]].
  - symmetry. apply vround12_comp. exact VN'.
  - apply vround12_comp. clearbody site. destruct o as [[[[[a11 a12] a13] [[a21 a22] a23]] [[a31 a32] a33]] [[t1 t2] t3]], site as [[x y] z], (b_coord b) as [[u v] w], s as [[s1 s2] s3], n as [[n1 n2] n3]. cbn in *. destruct VS as (A1 & A2 & A3), VN' as (B1 & B2 & B3).
    assert (H : forall ax ay az t (S i N : Q), (ax * x + ay * y + az * z + t == S + i -> ax * u + ay * v + az * w + t - i == N -> (N - S) * frac + S == ax * (x + (u - x) * frac) + ay * (y + (v - y) * frac) + az * (z + (w - z) * frac) + t - i)%Q).
    { intros ax ay az t S i N E1 E2. rewrite <- E2. setoid_replace S with (ax * x + ay * y + az * z + t - i)%Q by (rewrite E1; ring). ring. }
    repeat split; apply H; assumption.
  - eexists. split; [|reflexivity]. destruct s as [[s1 s2] s3], n as [[n1 n2] n3], m as [[[[m1 m2] m3] [[p1 p2] p3]] [[q1 q2] q3]]. unfold veq, vmat, vscale, vmap, vsub, vsubz, vshift. unfold Z.sub. rewrite !inject_Z_plus, !inject_Z_opp. repeat split; ring.
  - destruct s as [[s1 s2] s3], n as [[n1 n2] n3]. do 3 eexists. split; [|cbn zeta; reflexivity]. unfold veq, vscale, vmap, vsub, vsubz, vshift. unfold Z.sub. rewrite !inject_Z_plus, !inject_Z_opp. repeat split; ring.
Qed.
Theorem C116_rows root fracs m tol bonds ops p t b frac type o : nth_error bonds p = Some (b, (frac, type)) -> nth_error ops t = Some o ->
  length (generate_symmetric_bonds root fracs m tol bonds ops) = (length bonds * length ops)%nat /\
  nth_error (generate_symmetric_bonds root fracs m tol bonds ops) (p * length ops + t) = Some (sym_row root fracs m tol b frac type o).
Proof.
  intros P T. assert (LT : (t < length ops)%nat) by (apply nth_error_Some; congruence). unfold generate_symmetric_bonds. split.
  - clear P. induction bonds as [|[b' [f' t']] bonds IH]; [reflexivity|]. cbn [flat_map length]. rewrite app_length, map_length, IH. reflexivity.
  - revert p P. induction bonds as [|[b' [f' t']] bonds IH]; intros [|p] P; try discriminate; cbn [flat_map].
    + cbn in P. injection P as -> -> ->. cbn [Nat.mul Nat.add]. rewrite nth_error_app1 by now rewrite map_length. now rewrite nth_error_map, T.
    + rewrite nth_error_app2 by (rewrite map_length; nia). rewrite map_length. replace (S p * length ops + t - length ops)%nat with (p * length ops + t)%nat by nia. now apply IH.
Qed.

(** ** What does not hold *)
(** C50: equivalent bonds may get different representatives.  Below a fourfold axis through the site turns one bond into
    the other. *)
Definition turn : op := (((1, 0, 0), (0, 0, -(1)), (0, 1, 0)), (0, 0, 0))%Q.
Definition turn2 : op := (((1, 0, 0), (0, -(1), 0), (0, 0, -(1))), (0, 0, 0))%Q.
Definition turn3 : op := (((1, 0, 0), (0, 0, 1), (0, -(1), 0)), (0, 0, 0))%Q.
Definition stay : op := (((1, 0, 0), (0, 1, 0), (0, 0, 1)), (0, 0, 0))%Q.
Theorem C50_equivalent_refuted : exists fracs equiv tol ops o n1 n2 dist, In o ops /\ veq (apply_op o n1) n2 /\ (forall o', In o' ops -> veq (apply_op o' (nth 0 fracs zero3)) (nth 0 fracs zero3)) /\
  let reps := get_canonical_bonds [mkBond 0 1 n1 dist; mkBond 0 2 n2 dist] fracs equiv ops tol [0%nat] [0%nat; 1%nat] in r_disp (nth 0 reps (mkRep 0 0 0 (0, 0, 0) 0)) <> r_disp (nth 1 reps (mkRep 0 0 0 (0, 0, 0) 0)).
Proof.
  exists [(0, 0, 0); (1 # 10, 4 # 5, 0); (1 # 10, 0, 4 # 5); (1 # 10, 1 # 5, 0); (1 # 10, 0, 1 # 5)]%Q, [0; 1; 1; 1; 1], (1 # 50)%Q, [stay; turn; turn2; turn3], turn, (1 # 10, - (1 # 5), 0)%Q, (1 # 10, 0, - (1 # 5))%Q, 1%Q.
  split; [right; now left|]. split; [repeat split; reflexivity|]. split; [intros o' I; cbn in I; repeat (destruct I as [<-|I]; [repeat split; reflexivity|]); destruct I|]. vm_compute. discriminate.
Qed.
(** C117: nor do displacements that differ by a lattice vector, at half a lattice vector. *)
Theorem C117_half_refuted : exists x y z a tol, get_canonical_displacement (x + inject_Z a, y, z)%Q tol <> get_canonical_displacement (x, y, z) tol.
Proof. exists (1 # 2)%Q, (1 # 10)%Q, 0%Q, 1, (1 # 50)%Q. vm_compute. discriminate. Qed.
(** C118: a bond between equivalent sites and its reverse are given the same representative, also if no operation reverses
    the bond.  Below there is a screw axis. *)
Definition screw : op := (((-(1), 0, 0), (0, -(1), 0), (0, 0, 1)), (0, 0, 1 # 2))%Q.
Theorem C118_reverse_refuted : exists fracs equiv tol ops n1 n2 dist, let s1 := nth 0 fracs zero3 in let s2 := nth 1 fracs zero3 in
  veq (vsub n2 s2) (vopp (vsub n1 s1)) /\ (forall o, In o ops -> ~ veq (vsub (apply_op o n1) (apply_op o s1)) (vopp (vsub n1 s1))) /\
  (exists o, In o ops /\ veq (vmap mod1 (apply_op o s1)) s2) /\
  let reps := get_canonical_bonds [mkBond 0 1 n1 dist; mkBond 1 0 n2 dist] fracs equiv ops tol [0%nat; 1%nat] [0%nat; 1%nat] in nth 0 reps (mkRep 9 0 0 (0, 0, 0) 0) = nth 1 reps (mkRep 8 0 0 (0, 0, 0) 0).
Proof.
  exists [(1 # 10, 0, 0); (9 # 10, 0, 1 # 2)]%Q, [0; 0], (1 # 50)%Q, [stay; screw], (-(1 # 10), 0, 1 # 2)%Q, (11 # 10, 0, 0)%Q, 1%Q. cbv zeta. split; [repeat split; reflexivity|]. split.
  - intros o [<-|[<-|[]]] (A & B & C); [discriminate A|discriminate C].
  - split; [exists screw; split; [right; now left|repeat split; reflexivity]|vm_compute; reflexivity].
Qed.
(** C119: the reported distance is that of the dividing point, not the length of the bond. *)
Theorem C119_dist_refuted : (forall root fracs m tol b frac type o r, sym_row root fracs m tol b frac type o = Some r -> g_dist r = g_radius r) /\
  exists fracs m tol b frac o r, sym_row (fun q => q) fracs m tol b frac 0 o = Some r /\ o = stay /\ ~ (g_dist r == norm2 (vmat (vsub (b_coord b) (nth (b_site b) fracs zero3)) m))%Q.
Proof.
  split.
  - intros root fracs m tol b frac type o r. unfold sym_row. destruct (locate _ _ _) as [si im]. destruct (locate _ _ _) as [ni nim]. destruct (np_get fracs si); [|discriminate]. destruct (np_get fracs ni); [|discriminate]. intros E. injection E as <-. reflexivity.
  - exists [(0, 0, 0); (1 # 2, 0, 0)]%Q, ((1, 0, 0), (0, 1, 0), (0, 0, 1))%Q, (1 # 50)%Q, (mkBond 0 1 (1 # 2, 0, 0)%Q 1%Q), (1 # 2)%Q, stay. eexists. split; [vm_compute; reflexivity|]. split; [reflexivity|]. vm_compute. discriminate.
Qed.

(** ** Examples and assumptions *)
Example C115_example : get_canonical_displacement (-(3 # 10), 11 # 10, 0)%Q (1 # 50)%Q = (15, -5, 0).
Proof. vm_compute. reflexivity. Qed.
Example C115_example_bond : map (fun r => (r_inv r, r_lo r, r_hi r, r_disp r, r_len r)) (get_canonical_bonds [mkBond 1 0 (1, 0, 0)%Q 2%Q; mkBond 0 1 (3 # 5, 0, 0)%Q 2%Q] [(0, 0, 0); (3 # 5, 0, 0)]%Q [0; 1] [stay; turn2] (1 # 50)%Q [1; 0]%nat [0; 1]%nat) =
  [(1, 0, 1, (20, 0, 0), 100); (0, 0, 1, (20, 0, 0), 100)].
Proof. vm_compute. reflexivity. Qed.
(** The screw axis moves the bond from the first to the second site to one from the second site. *)
Example C116_example : option_map (fun r => (g_site r, g_neigh r, vmap Qred (g_point r), vmap Qred (g_coord r)))
  (sym_row (fun q => q) [(1 # 10, 0, 0); (9 # 10, 0, 1 # 2)]%Q ((1, 0, 0), (0, 1, 0), (0, 0, 1))%Q (1 # 50)%Q (mkBond 0 1 (-(1 # 10), 0, 1 # 2)%Q 1%Q) (1 # 4)%Q 0%Q screw) =
  Some (1, 0, (19 # 20, 0, 5 # 8)%Q, (11 # 10, 0, 1)%Q).
Proof. vm_compute. reflexivity. Qed.
Print Assumptions C115_opposite.
Print Assumptions C115_translated.
Print Assumptions C115_close.
Print Assumptions C115_image.
Print Assumptions C115_minimal.
Print Assumptions C115_least.
Print Assumptions C115_sites.
Print Assumptions C115_find.
Print Assumptions C115_bonds.
Print Assumptions C116_row.
Print Assumptions C116_rows.
Print Assumptions C50_equivalent_refuted.
Print Assumptions C117_half_refuted.
Print Assumptions C118_reverse_refuted.
Print Assumptions C119_dist_refuted.
