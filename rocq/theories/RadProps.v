(** C41, C67, C68: radii along bonds. *)
From Coq Require Import QArith Qabs Lqa.
From Verif Require Import Base RootsModel UnionModel ChargeModel NearModel RadModel RadSpec RadProofs RadTop.
Local Open Scope Z_scope.

(** C41: an odd number of points, about [res] per Angstrom. *)
Theorem C41_points d res : num_points d res mod 2 = 1 /\
  (d * res - (1 # 2) <= inject_Z (num_points d res) <= d * res + (3 # 2))%Q.
Proof. apply num_points_spec. Qed.
Print Assumptions C41_points.

(** C41: which radius is found. *)
Theorem C41_rule interp nearest coords covalent refinements atom a b d res :
  of_place Qeq interp -> of_place eq nearest -> coords <> [] ->
  (forall p, -1 <= nearest p < Z.of_nat (length coords)) ->
  3 <= num_points d res < 1000000 ->
  let n := Z.to_nat (num_points d res) in
  let place (t : Q) := on_bond a b (t / inject_Z (Z.of_nat n - 1)) in
  exists lab, (forall i, labelled nearest coords (place (inject_Z (Z.of_nat i))) (lab i)) /\
    radius_rule n lab (fun l => nth (Z.to_nat (l mod Z.of_nat (length coords))) covalent false)
      (fun t => interp (place t)) atom ((1 # 2) ^ Z.of_nat refinements)
      (get_elf_radius_frac interp nearest coords covalent refinements atom a b d res).
Proof.
  intros FI FN NE NR N3. cbn zeta. exists (fun i => label_at nearest coords (on_bond a b (inject_Z (Z.of_nat i) / inject_Z (Z.of_nat (Z.to_nat (num_points d res)) - 1)))).
  split; [intro i; apply label_at_ok; assumption|]. apply radius_rule_holds; assumption.
Qed.
Print Assumptions C41_rule.

(** C41: the radius lies strictly inside the bond. *)
Theorem C41_inside interp nearest coords covalent refinements atom a b d res :
  of_place Qeq interp -> of_place eq nearest -> coords <> [] ->
  (forall p, -1 <= nearest p < Z.of_nat (length coords)) ->
  3 <= num_points d res < 1000000 ->
  forall f c e, get_elf_radius_frac interp nearest coords covalent refinements atom a b d res = (f, c, e) -> (0 < f < 1)%Q.
Proof.
  intros FI FN NE NR N3 f c e E. pose proof (radius_rule_holds interp nearest coords covalent refinements FI FN NR a b d res atom N3) as R.
  rewrite E in R. revert R. now apply rule_bounds.
Qed.
Print Assumptions C41_inside.

(** C41: all bonds at once; the assertion holds, radii are fractions of the bond length, equivalent
    atoms share the bond equally and reversed bonds get the complement. *)
Theorem C41_all interp nearest coords covalent refinements equivalent l :
  of_place Qeq interp -> of_place eq nearest -> coords <> [] ->
  (forall p, -1 <= nearest p < Z.of_nat (length coords)) -> l <> [] ->
  (forall x, In x l -> 3 <= num_points (b_dist x) 20 < 1000000) ->
  exists res, get_all_atom_elf_radii interp nearest coords covalent refinements equivalent l = Done res /\
    Forall2 (fun x o => let '(r, f, c) := o in
      (0 < f < 1)%Q /\ (r == b_dist x * f)%Q /\
      let '(f0, c0, _) := get_elf_radius_frac interp nearest coords covalent refinements
          (Z.of_nat (b_site x)) (nth (b_site x) coords vzero) (b_coords x) (b_dist x) 20 in
      if Nat.eqb (nth (b_site x) equivalent 0%nat) (nth (b_neigh x) equivalent 0%nat) then (f == 1 # 2)%Q /\ c = true
      else (f == if b_reversed x then 1 - f0 else f0)%Q /\ c = c0) l res.
Proof.
  intros FI FN NE NR NL N3. unfold get_all_atom_elf_radii.
  assert (F : Forall2 (fun x o => let '(r, f, c) := o in
      (0 < f < 1)%Q /\ (r == b_dist x * f)%Q /\
      let '(f0, c0, _) := get_elf_radius_frac interp nearest coords covalent refinements
          (Z.of_nat (b_site x)) (nth (b_site x) coords vzero) (b_coords x) (b_dist x) 20 in
      if Nat.eqb (nth (b_site x) equivalent 0%nat) (nth (b_neigh x) equivalent 0%nat) then (f == 1 # 2)%Q /\ c = true
      else (f == if b_reversed x then 1 - f0 else f0)%Q /\ c = c0) l (map (bond_radius interp nearest coords covalent refinements equivalent) l)).
  { clear NL. induction l as [|x t IH]; cbn [map]; constructor; [|apply IH; intros; apply N3; now right].
    unfold bond_radius, get_elf_radius. specialize (N3 x (or_introl eq_refl)).
    destruct (get_elf_radius_frac interp nearest coords covalent refinements (Z.of_nat (b_site x)) (nth (b_site x) coords vzero) (b_coords x) (b_dist x) 20) as ((f0, c0), e0) eqn:E.
    pose proof (C41_inside _ _ _ _ _ _ _ _ _ _ FI FN NE NR N3 _ _ _ E) as B.
    destruct (Nat.eqb _ _); [|destruct (b_reversed x)].
    - split; [split; reflexivity|]. split; [reflexivity|]. split; reflexivity.
    - split; [lra|]. split; [ring|]. split; reflexivity.
    - split; [exact B|]. split; [reflexivity|]. split; reflexivity. }
  exists (map (bond_radius interp nearest coords covalent refinements equivalent) l). split; [|exact F].
  destruct l as [|x t]; [congruence|]. cbn [map]. cbn [map] in F. set (r0 := bond_radius _ _ _ _ _ _ x) in *.
  set (rs := map _ t) in *. replace (forallb _ (r0 :: rs)) with true; [reflexivity|]. symmetry. apply forallb_forall.
  intros ((r, f), c) Hin. apply In_nth_error in Hin as (i & Hi).
  assert (G : forall l1 l2 (P : bond -> Q * Q * bool -> Prop), Forall2 P l1 l2 -> forall i o, nth_error l2 i = Some o -> exists y, P y o).
  { clear. induction 1; intros [|i] o E; try discriminate; cbn in E; [injection E as <-; eauto|eauto]. }
  destruct (G _ _ _ F _ _ Hi) as (y & B & _). apply Bool.andb_true_iff. split; apply Qle_bool_iff; lra.
Qed.
Print Assumptions C41_all.

(** What [np.unique] promises for the canonical forms [key] of the bonds. *)
Definition unique_ok {K} (key : list K) (indices inverse : list nat) : Prop :=
  length inverse = length key /\
  (forall i j k k' c c', nth_error key i = Some k -> nth_error key j = Some k' ->
     nth_error inverse i = Some c -> nth_error inverse j = Some c' -> (c = c' <-> k = k')) /\
  (forall i k c, nth_error key i = Some k -> nth_error inverse i = Some c ->
     exists r, nth_error indices c = Some r /\ nth_error key r = Some k) /\
  (forall r, In r indices -> (r < length key)%nat).

(** C41: a bond and the same bond seen from the other end share the bond length. *)
Theorem C41_classes {K} interp nearest coords covalent refinements equivalent bonds (key : list K) indices inverse :
  of_place Qeq interp -> of_place eq nearest -> coords <> [] ->
  (forall p, -1 <= nearest p < Z.of_nat (length coords)) -> bonds <> [] ->
  (forall x, In x bonds -> 3 <= num_points (b_dist x) 20 < 1000000) ->
  length key = length bonds -> unique_ok key indices inverse ->
  exists fr, spread_fractions interp nearest coords covalent refinements equivalent bonds indices inverse = Done fr /\
    length fr = length bonds /\
    (forall f, In f fr -> (0 < f < 1)%Q) /\
    (forall i j x y k f g, nth_error key i = Some k -> nth_error key j = Some k ->
       nth_error bonds i = Some x -> nth_error bonds j = Some y -> nth_error fr i = Some f -> nth_error fr j = Some g ->
       if Bool.eqb (b_reversed x) (b_reversed y) then (f == g)%Q else (f + g == 1)%Q) /\
    (forall i c x f, nth_error inverse i = Some c -> nth_error indices c = Some i ->
       nth_error bonds i = Some x -> nth_error fr i = Some f ->
       nth (b_site x) equivalent 0%nat <> nth (b_neigh x) equivalent 0%nat ->
       (f == fst (fst (get_elf_radius_frac interp nearest coords covalent refinements
          (Z.of_nat (b_site x)) (nth (b_site x) coords vzero) (b_coords x) (b_dist x) 20)))%Q).
Proof.
  intros FI FN NE NR NB N3 LK (U1 & U2 & U3 & U4). unfold spread_fractions.
  set (dflt := Bond 0 0 vzero 0 false). set (reps := map (fun j => nth j bonds dflt) indices).
  assert (NI : indices <> []).
  { destruct bonds as [|x t]; [congruence|]. destruct key as [|k ks]; [discriminate|]. destruct inverse as [|c cs]; [discriminate|].
    destruct (U3 0%nat k c eq_refl eq_refl) as (r & E & _). intros ->. destruct c; discriminate. }
  destruct (C41_all interp nearest coords covalent refinements equivalent reps FI FN NE NR) as (res & E & F).
  { unfold reps. destruct indices; [congruence|discriminate]. }
  { intros x Hx. apply in_map_iff in Hx as (j & <- & Hj). apply N3, nth_In. rewrite <- LK. now apply U4. }
  rewrite E. cbn [obind]. set (fracs := map (fun x : Q * Q * bool => let '(_, f, _) := x in f) res).
  assert (LF : length fracs = length indices).
  { unfold fracs. rewrite map_length. unfold reps in F. clear -F. rewrite <- (map_length (fun j => nth j bonds dflt) indices). induction F; cbn; congruence. }
  assert (GF : forall c, (c < length indices)%nat -> exists o, nth_error res c = Some o /\ nth c fracs 0%Q = snd (fst o) /\ nth_error reps c = Some (nth (nth c indices 0%nat) bonds dflt)).
  { intros c Hc. destruct (nth_error res c) as [[[r f] cc]|] eqn:Eo.
    - exists (r, f, cc). split; [reflexivity|]. split.
      + unfold fracs. apply nth_error_nth. now rewrite (map_nth_error _ _ _ Eo).
      + unfold reps. apply (map_nth_error (fun j => nth j bonds dflt)). now apply nth_error_nth'.
    - apply nth_error_None in Eo. unfold fracs in LF. rewrite map_length in LF. lia. }
  assert (F2 : forall c x o, nth_error reps c = Some x -> nth_error res c = Some o -> (let '(r, f, c) := o in
      (0 < f < 1)%Q /\ (r == b_dist x * f)%Q /\
      let '(f0, c0, _) := get_elf_radius_frac interp nearest coords covalent refinements
          (Z.of_nat (b_site x)) (nth (b_site x) coords vzero) (b_coords x) (b_dist x) 20 in
      if Nat.eqb (nth (b_site x) equivalent 0%nat) (nth (b_neigh x) equivalent 0%nat) then (f == 1 # 2)%Q /\ c = true
      else (f == if b_reversed x then 1 - f0 else f0)%Q /\ c = c0)).
  { clear -F. induction F as [|x o l1 l2 P F IH]; intros [|c] x' o' E1 E2; try discriminate; cbn in E1, E2.
    - injection E1 as <-. injection E2 as <-. exact P.
    - eapply IH; eassumption. }
  assert (IB : forall i c, nth_error inverse i = Some c -> (c < length indices)%nat).
  { intros i c Hi. assert (Hl : (i < length key)%nat) by (rewrite <- U1; apply nth_error_Some; congruence).
    destruct (nth_error key i) as [k|] eqn:Ek; [|apply nth_error_None in Ek; lia].
    destruct (U3 i k c Ek Hi) as (r & Er & _). apply nth_error_Some. congruence. }
  assert (FB : forall c, (c < length indices)%nat -> (0 < nth c fracs 0 < 1)%Q).
  { intros c Hc. destruct (GF c Hc) as (o & Eo & Ef & Er). specialize (F2 c _ _ Er Eo). destruct o as ((r, f), cc). cbn in Ef. rewrite Ef. tauto. }
  eexists. split; [reflexivity|]. set (fr := map _ (combine bonds inverse)).
  assert (LC : length (combine bonds inverse) = length bonds) by (rewrite combine_length, U1, LK; apply Nat.min_id).
  assert (NF : forall i f, nth_error fr i = Some f -> exists x c, nth_error bonds i = Some x /\ nth_error inverse i = Some c /\
      f = (if b_reversed x then (1 - nth c fracs 0)%Q else nth c fracs 0%Q)).
  { intros i f Hf. unfold fr in Hf. rewrite nth_error_map in Hf. destruct (nth_error (combine bonds inverse) i) as [[x c]|] eqn:Ec; [|discriminate].
    cbn in Hf. injection Hf as <-. exists x, c.
    assert (HI : (i < length bonds)%nat) by (rewrite <- LC; apply nth_error_Some; congruence).
    clear -Ec. revert i inverse Ec. induction bonds as [|y t IH]; intros [|i] [|c' cs] Ec; try discriminate; cbn in Ec.
    - injection Ec as -> ->. auto.
    - cbn. now apply IH. }
  split; [unfold fr; now rewrite map_length|]. split; [|split].
  - intros f Hf. apply In_nth_error in Hf as (i & Hi). destruct (NF i f Hi) as (x & c & _ & Hc & ->).
    specialize (FB c (IB i c Hc)). destruct (b_reversed x); lra.
  - intros i j x y k f g Ki Kj Bi Bj Fi Fj. destruct (NF i f Fi) as (x' & c & Hx & Hc & ->). destruct (NF j g Fj) as (y' & c' & Hy & Hc' & ->).
    rewrite Bi in Hx. injection Hx as <-. rewrite Bj in Hy. injection Hy as <-.
    assert (c = c') by (now apply (U2 i j k k c c' Ki Kj Hc Hc')). subst c'. destruct (b_reversed x), (b_reversed y); cbn; try reflexivity; ring.
  - intros i c0' x f Hi Hr Bi Fi Ne. destruct (NF i f Fi) as (x' & c & Hx & Hc & ->). rewrite Bi in Hx. injection Hx as <-.
    rewrite Hi in Hc. injection Hc as ->. rename Hi into Hc. pose proof (IB i c Hc) as Hcl. destruct (GF c Hcl) as (o & Eo & Ef & Er). specialize (F2 c _ _ Er Eo).
    rewrite (nth_error_nth _ _ _ Hr), (nth_error_nth _ _ _ Bi) in F2. destruct o as ((r, f), cc). cbn in Ef. rewrite Ef.
    destruct F2 as (_ & _ & F2). destruct (get_elf_radius_frac _ _ _ _ _ _ _ _ _ _) as ((f0, c0), e0).
    apply Nat.eqb_neq in Ne. rewrite Ne in F2. destruct F2 as (F2 & _). cbn. destruct (b_reversed x); rewrite F2; ring.
Qed.
Print Assumptions C41_classes.

(** ** Examples: two atoms at 0 and 1/2 on a line, five points, a minimum at 1/5. *)
Definition two_atoms : list vec := [(0, 0, 0); (1 # 2, 0, 0)]%Q.
Definition valley (p : vec) : Q := let '(x, _, _) := p in ((x - (1 # 5)) * (x - (1 # 5)))%Q.
Definition halves (p : vec) : Z := let '(x, _, _) := p in if Qltb x (1 # 4) then 0 else 1.

Definition frac_of (r : Q * bool * bool) : Q * bool * bool := let '(f, c, e) := r in (Qred f, c, e).

Example C41_ex : frac_of (get_elf_radius_frac valley halves two_atoms [false; false] 3 0 (0, 0, 0) (1 # 2, 0, 0) (1 # 4) 20)%Q
  = (13 # 32, false, false)%Q.
Proof. vm_compute. reflexivity. Qed.

(** The bond seen from both ends. *)
Example C41_ex_spread : match spread_fractions valley halves two_atoms [false; false] 3 [0; 1]%nat
    [Bond 1%nat 0%nat (0, 0, 0) (1 # 4) true; Bond 0%nat 1%nat (1 # 2, 0, 0) (1 # 4) false]%Q [1]%nat [0; 0]%nat with
  | Done l => map Qred l = [19 # 32; 13 # 32]%Q | _ => False end.
Proof. vm_compute. reflexivity. Qed.

Lemma valley_place : of_place Qeq valley.
Proof. intros ((x, y), z) ((x', y'), z') (H & _). cbn. rewrite H. reflexivity. Qed.
Lemma halves_place : of_place eq halves.
Proof. intros ((x, y), z) ((x', y'), z') (H & _). cbn. now rewrite (Qltb_comp x (1 # 4) x' (1 # 4) H (Qeq_refl _)). Qed.

(** The hypotheses of the theorems hold for it. *)
Example C41_ex_hyps : of_place Qeq valley /\ of_place eq halves /\ two_atoms <> [] /\
  (forall p, -1 <= halves p < Z.of_nat (length two_atoms)) /\ 3 <= num_points (1 # 4) 20 < 1000000.
Proof.
  split; [exact valley_place|]. split; [exact halves_place|]. split; [discriminate|]. split.
  - intros ((x, y), z). cbn. destruct (Qltb x (1 # 4)); lia.
  - split; [discriminate|reflexivity].
Qed.

(** C67: looking at a bond from its other end gives the complementary fraction.  Two maxima at the
    same distance from the middle: the first one met is taken. *)
Definition two_tops (p : vec) : Q := let '(x, _, _) := p in (- ((x - (1 # 6)) * (x - (1 # 3)) * ((x - (1 # 6)) * (x - (1 # 3)))))%Q.
Definition thirds (p : vec) : Z := let '(x, _, _) := p in if Qltb x (1 # 8) then 0 else if Qltb (3 # 8) x then 1 else 2.

Theorem C67_ends_refuted : exists interp nearest coords covalent refinements a b d f g,
  of_place Qeq interp /\ of_place eq nearest /\ (forall p, -1 <= nearest p < Z.of_nat (length coords)) /\
  3 <= num_points d 20 < 1000000 /\
  get_elf_radius_frac interp nearest coords covalent refinements 0 a b d 20 = (f, true, false) /\
  get_elf_radius_frac interp nearest coords covalent refinements 1 b a d 20 = (g, true, false) /\
  ~ (f + g == 1)%Q.
Proof.
  exists two_tops, thirds, [(0, 0, 0); (1 # 2, 0, 0); (1 # 4, 0, 0)]%Q, [false; false; true], 0%nat, (0, 0, 0)%Q, (1 # 2, 0, 0)%Q, (7 # 20)%Q.
  eexists. eexists. split.
  { intros ((x, y), z) ((x', y'), z') (H & _). cbn. rewrite H. reflexivity. }
  split.
  { intros ((x, y), z) ((x', y'), z') (H & _). cbn. now rewrite (Qltb_comp x (1 # 8) x' (1 # 8) H (Qeq_refl _)), (Qltb_comp (3 # 8) x (3 # 8) x' (Qeq_refl _) H). }
  split; [intros ((x, y), z); cbn; destruct (Qltb x (1 # 8)); [lia|destruct (Qltb (3 # 8) x); lia]|].
  split; [split; [discriminate|reflexivity]|].
  split; [vm_compute; reflexivity|]. split; [vm_compute; reflexivity|]. discriminate.
Qed.
Print Assumptions C67_ends_refuted.

(** C68: points without a label do not change the radius.  A missing label at the position of the
    atom itself makes the atom's other points foreign. *)
Definition hollow (p : vec) : Z := let '(x, _, _) := p in if Qltb x (1 # 16) then -1 else if Qltb x (1 # 4) then 0 else 1.

Theorem C68_unlabelled_refuted : exists interp nearest nearest' coords covalent refinements a b d f f',
  of_place Qeq interp /\ of_place eq nearest /\ of_place eq nearest' /\
  (forall p, nearest p = nearest' p \/ nearest p = -1 /\ nearest' p = 0) /\
  3 <= num_points d 20 < 1000000 /\
  get_elf_radius_frac interp nearest' coords covalent refinements 0 a b d 20 = (f', false, false) /\
  get_elf_radius_frac interp nearest coords covalent refinements 0 a b d 20 = (f, true, false) /\
  ~ (f == f')%Q.
Proof.
  exists valley, hollow, halves, two_atoms, [false; false], 3%nat, (0, 0, 0)%Q, (1 # 2, 0, 0)%Q, (1 # 4)%Q.
  eexists. eexists. split; [exact valley_place|]. split.
  { intros ((x, y), z) ((x', y'), z') (H & _). cbn. now rewrite (Qltb_comp x (1 # 16) x' (1 # 16) H (Qeq_refl _)), (Qltb_comp x (1 # 4) x' (1 # 4) H (Qeq_refl _)). }
  split; [exact halves_place|]. split.
  { intros ((x, y), z). cbn. destruct (Qltb_spec x (1 # 16)); destruct (Qltb_spec x (1 # 4)); try tauto. exfalso. lra. }
  split; [split; [discriminate|reflexivity]|].
  split; [vm_compute; reflexivity|]. split; [vm_compute; reflexivity|]. discriminate.
Qed.
Print Assumptions C68_unlabelled_refuted.
