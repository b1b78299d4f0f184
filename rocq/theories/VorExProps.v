From Coq Require Import QArith Lqa Sorted.
From Verif Require Import Base WeightModel InterpProofs RootsModel RootsProofs LabelsProofs UnionModel ChargeModel CoordModel CoordProofs CoordMerge CoordProps NearModel RefineModel PlaneModel PlaneWrap PlaneProps EnvModel EnvProps RadModel RadSpec RadProofs RadProps BondModel BondProps VorModel VorProofs VorTop VorProps.
From Verif Require StructProps.
Local Open Scope Z_scope.

(** ** Examples: two atoms in a cube, with an inversion. *)
Definition key_eqb (a b : key) : bool :=
  let '(x, y, (p, q, r), l) := a in let '(x', y', (p', q', r'), l') := b in (x =? x') && (y =? y') && (p =? p') && (q =? q') && (r =? r') && (l =? l').
Lemma key_eqb_spec a b : key_eqb a b = true <-> a = b.
Proof.
  destruct a as [[[x y] [[p q] r]] l], b as [[[x' y'] [[p' q'] r']] l']. unfold key_eqb. rewrite !andb_true_iff, !Z.eqb_eq. split; [intros (((((-> & ->) & ->) & ->) & ->) & ->); reflexivity|]. intros [= -> -> -> -> -> ->]. auto 10.
Qed.
Fixpoint where_is (k : key) (l : list key) : nat := match l with [] => 0%nat | x :: t => if key_eqb k x then 0%nat else S (where_is k t) end.
Definition first_uniq (l : list key) : list nat * list nat := (seq 0 (length l), map (fun k => where_is k l) l).
Lemma where_nth k l : In k l -> nth_error l (where_is k l) = Some k.
Proof. induction l as [|x t IH]; [intros []|]. cbn. destruct (key_eqb k x) eqn:E; [apply key_eqb_spec in E; subst; reflexivity|]. intros [->|H]; [rewrite (proj2 (key_eqb_spec k k) eq_refl) in E; discriminate|]. cbn. auto. Qed.
Lemma first_uniq_ok keys : unique_ok keys (fst (first_uniq keys)) (snd (first_uniq keys)).
Proof.
  unfold first_uniq. cbn [fst snd]. split; [apply map_length|]. split; [|split].
  - intros i j k k' c c' Ki Kj Ci Cj. rewrite nth_error_map, Ki in Ci. rewrite nth_error_map, Kj in Cj. cbn in Ci, Cj. injection Ci as <-. injection Cj as <-. split; [|now intros ->]. intros E. apply nth_error_In in Ki, Kj. apply where_nth in Ki, Kj. rewrite E in Ki. congruence.
  - intros i k c Ki Ci. rewrite nth_error_map, Ki in Ci. cbn in Ci. injection Ci as <-. apply nth_error_In in Ki. apply where_nth in Ki. exists (where_is k keys). split; [|exact Ki]. assert (L : (where_is k keys < length keys)%nat) by (apply nth_error_Some; congruence). rewrite (nth_error_nth' _ 0%nat) by now rewrite seq_length. now rewrite seq_nth.
  - intros r R. apply in_seq in R. lia.
Qed.
Definition e_root (x : Q) : Q := if Qeq_bool x (1 # 4) then 1 # 2 else if Qeq_bool x (1 # 25) then 1 # 5 else if Qeq_bool x (9 # 100) then 3 # 10 else 1.
Definition e_around (s : nat) : list nn :=
  [Nn (1 - s) (0, 0, 0) (1 # 2); Nn (1 - s) (2 * Z.of_nat s - 1, 0, 0) (1 # 2);
   Nn s (0, 1, 0) 1; Nn s (0, -1, 0) 1; Nn s (0, 0, 1) 1; Nn s (0, 0, -1) 1; Nn s (1, 0, 0) 1; Nn s (0, 0, 0) 0].
Definition e_list (s : nat) (r : Q) : list nn := filter (fun y => Qle_bool (n_dist y) r) (e_around s).
Definition e_found (s : nat) : list nn := [Nn (1 - s) (2 * Z.of_nat s - 1, 0, 0) (1 # 2); Nn s (0, 0, 0) 0; Nn (1 - s) (0, 0, 0) (1 # 2)].
Definition flip : op := ((- (1), 0, 0), (0, - (1), 0), (0, 0, - (1)), (0, 0, 0))%Q.
Definition cube : mat := ((1, 0, 0), (0, 1, 0), (0, 0, 1))%Q.
(** Corners of the box cut out by planes along the axes. *)
Definition bounds (eqns : list eqn) (get : vec -> Q) : Q * Q :=
  fold_left (fun '(lo, hi) '(u, d) => if Qltb 0 (get u) then (lo, if Qltb (- d / get u) hi then - d / get u else hi) else if Qltb (get u) 0 then (if Qltb lo (- d / get u) then - d / get u else lo, hi) else (lo, hi))%Q eqns ((- (10), 10)%Q).
Definition box (eqns : list eqn) (p : vec) : option (list vec) :=
  let b1 := bounds eqns (fun '(x, _, _) => x) in let b2 := bounds eqns (fun '(_, y, _) => y) in let b3 := bounds eqns (fun '(_, _, z) => z) in
  let both (b : Q * Q) := [fst b; snd b] in
  Some (flat_map (fun x => flat_map (fun y => map (fun z => (x, y, z)) (both b3)) (both b2)) (both b1)).
Definition e_equiv : list nat := [0; 1]%nat.
Definition e_interp (p : vec) : Q := let '(x, y, z) := p in ((x - (1 # 5)) * (x - (1 # 5)))%Q.
Definition e_run ops := get_voronoi_radii e_root sort_idx two_atoms e_equiv ops cube e_found e_list [1; 0]%nat (rev (seq 0 12)) first_uniq box e_interp halves two_atoms [false; false] 3.

Example C175_ex : match e_run [stay; flip] with
  | Done l => map (fun r => (g_site r, g_neigh r, Qred (g_radius r), Qred (g_type r))) l =
      [(0, 0, 1 # 2, 1%Q); (0, 0, 1 # 2, 1%Q); (0, 0, 1 # 2, 1%Q); (0, 0, 1 # 2, 1%Q); (0, 1, 1 # 5, 0%Q); (0, 1, 1 # 5, 0%Q);
       (1, 0, 3 # 10, 0%Q); (1, 0, 3 # 10, 0%Q); (1, 1, 1 # 2, 1%Q); (1, 1, 1 # 2, 1%Q); (1, 1, 1 # 2, 1%Q); (1, 1, 1 # 2, 1%Q)]
  | _ => False end.
Proof. vm_compute. reflexivity. Qed.
Lemma e_root_pos : pos_root e_root.
Proof. intros x _. unfold e_root. destruct (Qeq_bool _ _); [reflexivity|]. destruct (Qeq_bool _ _); [reflexivity|]. destruct (Qeq_bool _ _); reflexivity. Qed.
Lemma e_list_in s r y : In y (e_list s r) <-> In y (e_around s) /\ (n_dist y <= r)%Q.
Proof. unfold e_list. now rewrite filter_In, Qle_bool_iff. Qed.
Lemma e_list_ok : nlist_ok e_list.
Proof. intros s r r' y E H. rewrite e_list_in in *. destruct H as [H1 H2]. split; [exact H1|]. now rewrite <- E. Qed.
Lemma two_sites s : In s e_equiv -> s = 0%nat \/ s = 1%nat.
Proof. cbn. lia. Qed.
Lemma e_neighbours s : In s e_equiv -> neighbours_ok e_root two_atoms e_list s (e_found s).
Proof.
  intros H. apply two_sites in H as [->| ->]; (split; [eexists; split; [right; right; now left|discriminate]|]); intros z [<-|[<-|[<-|[]]]] NZ; try (exfalso; apply NZ; reflexivity);
    (split; [apply Qle_bool_iff; reflexivity|]); (split; [reflexivity|]); (split; [apply Qle_bool_iff; reflexivity|]); intros r R; apply e_list_in; (split; [|exact R]); cbn; auto.
Qed.
Lemma e_dist s r y : In y (e_list s r) -> (tiny <= n_dist y)%Q -> 3 <= num_points (n_dist y) 20 < 1000000.
Proof.
  intros H T. apply e_list_in in H as [H _]. unfold e_around in H. do 7 (destruct H as [<-|H]; [split; [discriminate|reflexivity]|]). destruct H as [<-|[]]. exfalso. apply Qle_bool_iff in T. discriminate.
Qed.
Lemma e_away s r y : In s e_equiv -> In y (e_list s r) -> (tiny <= n_dist y)%Q -> (n_idx y < length two_atoms)%nat /\ (0 < norm2 (away two_atoms s y))%Q.
Proof.
  intros S H T. apply e_list_in in H as [H _]. apply two_sites in S as [->| ->]; unfold e_around in H; (do 7 (destruct H as [<-|H]; [split; [cbn; lia|reflexivity]|])); (destruct H as [<-|[]]; exfalso; apply Qle_bool_iff in T; discriminate).
Qed.
Lemma e_symmetric o k J : In o [stay; flip] -> (k < length two_atoms)%nat -> exists l I, (l < length two_atoms)%nat /\ veq (apply_op o (vshift (site_coord two_atoms k) J)) (vshift (site_coord two_atoms l) I).
Proof.
  destruct J as [[a b] c]. intros [<-|[<-|[]]] K.
  - exists k, (a, b, c). split; [exact K|]. destruct (site_coord two_atoms k) as [[x y] z]. cbn. repeat split; ring.
  - assert (K' : k = 0%nat \/ k = 1%nat) by (cbn in K; lia). destruct K' as [->| ->]; [exists 0%nat, (- a, - b, - c)|exists 1%nat, (- a - 1, - b, - c)]; (split; [cbn; lia|]); unfold Z.sub; cbn; rewrite ?inject_Z_plus, !inject_Z_opp; repeat split; ring.
Qed.
(** The hypotheses of C171-C175 hold for it. *)
Example C175_ex_hyps : (exists out, e_run [stay; flip] = Done out) /\ (exists bs, considered e_root sort_idx two_atoms e_found e_list (unique_atoms e_equiv) = Done bs /\ length bs = 12%nat).
Proof.
  split; [|eexists; split; vm_compute; reflexivity].
  unfold e_run. simple apply C175_done.
  - apply sort_idx_sorts.
  - exact e_root_pos.
  - exact e_list_ok.
  - exact e_neighbours.
  - exact first_uniq_ok.
  - intros ((x, y), z) ((x', y'), z') (H & _). cbn. rewrite H. reflexivity.
  - exact halves_place.
  - discriminate.
  - intros ((x, y), z). cbn. destruct (Qltb x (1 # 4)); lia.
  - exact e_dist.
  - discriminate.
  - intros eqns p _ _. discriminate.
  - exact e_away.
  - intros s H. apply two_sites in H as [->| ->]; cbn; lia.
  - exact e_symmetric.
  - vm_compute. repeat constructor; cbn; intuition congruence.
  - intros v [<-|[<-|[]]]; repeat split; reflexivity || discriminate.
Qed.

(** ** What does not hold *)
(** C176: the fraction of a bond is the one found along it.  Without any symmetry, the bonds from an atom to a neighbour half a cell away on
    either side have one representative, and the fraction found along one of them is used for both. *)
Definition p_interp (p : vec) : Q := let '(x, _, _) := p in ((x - (1 # 5)) * (x + (3 # 10)) * ((x - (1 # 5)) * (x + (3 # 10))))%Q.
Definition p_near (p : vec) : Z := let '(x, _, _) := p in if Qltb (- (1 # 4)) x && Qltb x (1 # 4) then 0 else 1.
Theorem C176_along_refuted : exists root argsort fracs equiv found nlist order1 order2 uniq interp nearest covalent refinements bs fr i y f,
  considered root argsort fracs found nlist (unique_atoms equiv) = Done bs /\ (forall l, unique_ok l (fst (uniq l)) (snd (uniq l))) /\
  of_place Qeq interp /\ of_place eq nearest /\ (forall p, -1 <= nearest p < Z.of_nat (length fracs)) /\
  fractions fracs equiv [stay] order1 order2 interp nearest fracs covalent refinements bs (fst (uniq (keys fracs equiv [stay] order1 order2 bs))) (snd (uniq (keys fracs equiv [stay] order1 order2 bs))) = Done fr /\
  nth_error bs i = Some (0%nat, y) /\ nth_error fr i = Some f /\ nth 0 equiv 0%nat <> nth (n_idx y) equiv 0%nat /\
  let '(own, _, failed) := get_elf_radius_frac interp nearest fracs covalent refinements 0 (site_coord fracs 0) (position fracs y) (n_dist y) 20 in failed = false /\ ~ (f == own)%Q.
Proof.
  exists e_root, sort_idx, two_atoms, e_equiv, e_found, e_list, [1; 0]%nat, (rev (seq 0 12)), first_uniq, p_interp, p_near, [false; false], 3%nat. do 2 eexists. exists 1%nat. do 2 eexists.
  split; [vm_compute; reflexivity|]. split; [exact first_uniq_ok|]. split; [intros ((x, y), z) ((x', y'), z') (H & _); cbn; rewrite H; reflexivity|].
  split; [intros ((x, y), z) ((x', y'), z') (H & _); cbn; now rewrite (Qltb_comp x (1 # 4) x' (1 # 4) H (Qeq_refl _)), (Qltb_comp (- (1 # 4)) x (- (1 # 4)) x' (Qeq_refl _) H)|].
  split; [intros ((x, y), z); cbn; destruct (_ && _); lia|]. split; [vm_compute; reflexivity|]. split; [reflexivity|]. split; [reflexivity|]. split; [discriminate|]. vm_compute. split; [reflexivity|discriminate].
Qed.
Print Assumptions C176_along_refuted.

(** C177: the planes reported for an atom include all that bound its region.  Which planes touch the region is decided with planes
    that are perpendicular to the bonds in fractional coordinates.  In a skew cell with one atom, all bonds divided in the middle,
    the two planes between the atom and its images along the short diagonal are left out: a point nearer to such an image than to the atom
    is on the atom's side of all planes reported. *)
Definition skew : mat := ((1, 0, 0), (2 # 5, 1, 0), (0, 0, 1))%Q.
Definition k_atom : list vec := [(0, 0, 0)]%Q.
Definition k_around : list nn :=
  [Nn 0 (1, 0, 0) 1; Nn 0 (-1, 0, 0) 1; Nn 0 (0, 0, 1) 1; Nn 0 (0, 0, -1) 1;
   Nn 0 (0, 1, 0) (1077 # 1000); Nn 0 (0, -1, 0) (1077 # 1000); Nn 0 (1, -1, 0) (1166 # 1000); Nn 0 (-1, 1, 0) (1166 # 1000)].
Definition k_list (s : nat) (r : Q) : list nn := filter (fun y => Qle_bool (n_dist y) r) k_around.
Definition k_run := get_voronoi_radii StructProps.sqrt20 sort_idx k_atom [0%nat] [stay; flip] skew (fun _ => k_around) k_list [0%nat] (seq 0 8) first_uniq box (fun _ => 0%Q) (fun _ => 0) k_atom [false] 3.
Definition half_cube (p : vec) : Prop := let '(x, y, z) := p in (- (1 # 2) <= x <= 1 # 2 /\ - (1 # 2) <= y <= 1 # 2 /\ - (1 # 2) <= z <= 1 # 2)%Q.
Definition k_out : list row := match k_run with Done l => l | _ => [] end.
Definition k_bonds : list (nat * nn) := map (fun y => (0%nat, y)) k_around.
Definition k_planes : list eqn := map (fun y => plane_equation StructProps.sqrt20 (0, 0, 0)%Q (position k_atom y) (1 # 2)) k_around.
Lemma k_region q : (forall e, In e k_planes -> (plane_value e q <= 0)%Q) <-> half_cube q.
Proof.
  assert (R : forall y, In y k_around -> ((plane_value (plane_equation StructProps.sqrt20 (0, 0, 0)%Q (position k_atom y) (1 # 2)) q <= 0)%Q <-> (vdot (vsub (position k_atom y) (0, 0, 0)%Q) (vsub q (0, 0, 0)%Q) <= (1 # 2) * norm2 (vsub (position k_atom y) (0, 0, 0)%Q))%Q)).
  { intros y Y. assert (POS : (0 < StructProps.sqrt20 (norm2 (vsub (position k_atom y) (0, 0, 0)%Q)))%Q /\ (0 < norm2 (vsub (position k_atom y) (0, 0, 0)%Q))%Q) by (repeat (destruct Y as [<-|Y]; [split; reflexivity|]); destruct Y).
    destruct POS as [P1 P2]. set (root' := fun x => if Qle_bool (StructProps.sqrt20 x) 0 then 1%Q else StructProps.sqrt20 x). assert (PR : pos_root root') by (intros x _; unfold root'; destruct (Qle_bool (StructProps.sqrt20 x) 0) eqn:E; [reflexivity|]; destruct (Qlt_le_dec 0 (StructProps.sqrt20 x)) as [L|L]; [exact L|apply Qle_bool_iff in L; congruence]).
    assert (ER : root' (norm2 (vsub (position k_atom y) (0, 0, 0)%Q)) = StructProps.sqrt20 (norm2 (vsub (position k_atom y) (0, 0, 0)%Q))) by (unfold root'; destruct (Qle_bool _ 0) eqn:E; [apply Qle_bool_iff in E; lra|reflexivity]).
    pose proof (below_iff root' (0, 0, 0)%Q (position k_atom y) (1 # 2) q 0 P2 PR) as B. unfold plane_equation in B |- *. rewrite ER in B. rewrite B. clear. set (r := StructProps.sqrt20 _). clearbody r. split; intro; lra. }
  destruct q as [[x y] z]. split.
  - intros H. assert (K : forall y0, In y0 k_around -> (vdot (vsub (position k_atom y0) (0, 0, 0)%Q) (vsub (x, y, z) (0, 0, 0)%Q) <= (1 # 2) * norm2 (vsub (position k_atom y0) (0, 0, 0)%Q))%Q) by (intros y0 Y; apply R; [exact Y|]; apply H; unfold k_planes; apply in_map_iff; eauto).
    pose proof (K (Nn 0 (1, 0, 0) 1) ltac:(cbn; auto)) as K1. pose proof (K (Nn 0 (-1, 0, 0) 1) ltac:(cbn; auto)) as K2. pose proof (K (Nn 0 (0, 0, 1) 1) ltac:(cbn; auto)) as K3. pose proof (K (Nn 0 (0, 0, -1) 1) ltac:(cbn; auto)) as K4. pose proof (K (Nn 0 (0, 1, 0) (1077 # 1000)) ltac:(cbn; auto 10)) as K5. pose proof (K (Nn 0 (0, -1, 0) (1077 # 1000)) ltac:(cbn; auto 10)) as K6.
    cbn in K1, K2, K3, K4, K5, K6. unfold inject_Z in *. cbn. repeat split; lra.
  - intros ((X1 & X2) & (Y1 & Y2) & (Z1 & Z2)) e He. unfold k_planes in He. apply in_map_iff in He as (y0 & <- & Y). apply R; [exact Y|]. repeat (destruct Y as [<-|Y]; [cbn; unfold inject_Z; lra|]). destruct Y.
Qed.
Definition apart2 (m : mat) (p q : vec) : Q := norm2 (vmat (vsub p q) m).
Theorem C177_bounding_refuted : exists root argsort fracs equiv ops matrix found nlist order1 order2 uniq corners interp nearest covalent refinements bs out vs y p,
  StructProps.near_root (1 # 10) root /\ considered root argsort fracs found nlist (unique_atoms equiv) = Done bs /\
  get_voronoi_radii root argsort fracs equiv ops matrix found nlist order1 order2 uniq corners interp nearest fracs covalent refinements = Done out /\
  (let planes := map (fun b => plane_equation root (site_coord fracs 0) (position fracs (snd b)) (1 # 2)) bs in
   corners planes (site_coord fracs 0) = Some vs /\ (forall q, (forall e, In e planes -> (plane_value e q <= 0)%Q) <-> half_cube q) /\
   (forall x y z, In (x, y, z) vs -> forall c, In c [x; y; z] -> (c == 1 # 2 \/ c == - (1 # 2))%Q) /\ length vs = 8%nat /\ NoDup (map (vmap Qred) vs)) /\
  (forall r, In r out -> g_site r = 0 /\ veq (g_point r) (RadModel.vscale (1 # 2) (g_coord r)) /\ (apart2 matrix p (site_coord fracs 0) < apart2 matrix p (g_coord r))%Q) /\
  In (0%nat, y) bs /\ (apart2 matrix p (position fracs y) < apart2 matrix p (site_coord fracs 0))%Q.
Proof.
  exists StructProps.sqrt20, sort_idx, k_atom, [0%nat], [stay; flip], skew, (fun _ => k_around), k_list, [0%nat], (seq 0 8), first_uniq, box, (fun _ => 0%Q), (fun _ => 0), [false], 3%nat, k_bonds, k_out.
  eexists. exists (Nn 0 (1, -1, 0) (1166 # 1000)), (3 # 4, - (3 # 4), 0)%Q.
  split; [exact StructProps.C33_root|]. split; [vm_compute; reflexivity|]. split; [vm_compute; reflexivity|]. split.
  { cbv zeta. split; [vm_compute; reflexivity|]. split; [exact k_region|]. split.
    - intros x y z H c C. repeat (destruct H as [H|H]; [injection H as <- <- <-; destruct C as [<-|[<-|[<-|[]]]]; (left; reflexivity) || (right; reflexivity)|]). destruct H.
    - split; [reflexivity|]. vm_compute. repeat (constructor; [cbn; intuition congruence|]). constructor. }
  split; [|split; [cbn; auto 12|reflexivity]]. intros r H. set (l := k_out) in H. vm_compute in l. subst l. repeat (destruct H as [<-|H]; [split; [reflexivity|]; split; [repeat split; reflexivity|reflexivity]|]). destruct H.
Qed.
Print Assumptions C177_bounding_refuted.
