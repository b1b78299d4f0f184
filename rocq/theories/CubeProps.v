(** Properties of cube files. *)
From Coq Require Import Ascii String QArith Qround Qabs Lqa Lia.
From Verif Require Import Base GridModel GridProofs ChargeModel NearModel NearSpec NearProofs TextModel TextProofs FmtProofs CoordModel GobjModel VaspModel VaspProofs VaspTop CubeModel CubeProofs CubeTop.
Local Open Scope Z_scope.

Lemma near_by_eq d a b v : (a == b)%Q -> near_by d a v -> near_by d b v.
Proof. unfold near_by. intros E H. rewrite <- E. exact H. Qed.
Lemma charges_given g charges : charges_or g charges = match charges with Some l => l | None => map (fun _ => 0%Q) (c_sites g) end.
Proof. destruct charges as [l|]; [reflexivity|]. cbn [charges_or]. induction (c_sites g) as [|s l IH]; [reflexivity|]. cbn [repeat List.length map]. now rewrite IH. Qed.
(** C30: a written grid is read back with its shape; the lattice, the atoms and the charges are the same to the
    written decimals, and the value at every voxel is the six-digit number written there times the volume, rounded to
    the guessed number of significant figures. *)
Theorem C30_roundtrip sample g charges : cube_ok g (match charges with Some l => l | None => map (fun _ => 0%Q) (c_sites g) end) (0, 0, 0)%Q ->
  exists g' q' o' sig, read_cube sample (fst (write_cube g charges None)) = Some (g', q', o', sig) /\
    a_shape (c_total g') = a_shape (c_total g) /\
    (let '(nx, ny, nz) := a_shape (c_total g) in let '(a, b, c) := c_matrix g in let '(a', b', c') := c_matrix g' in
     rel3 (near_by (inject_Z nx * micro)) a a' /\ rel3 (near_by (inject_Z ny * micro)) b b' /\ rel3 (near_by (inject_Z nz * micro)) c c') /\
    Forall2 (fun s s' => fst s' = fst s /\ rel3 (near_by (2 * micro)) (snd s) (snd s')) (c_sites g) (c_sites g') /\
    Forall2 near_micro (match charges with Some l => l | None => map (fun _ => 0%Q) (c_sites g) end) q' /\
    (let '(nx, ny, nz) := a_shape (c_total g) in forall i j k, 0 <= i < nx -> 0 <= j < ny -> 0 <= k < nz ->
       exists w, near6 (a_at (c_total g) i j k / (volume (c_matrix g) * (bohr * bohr * bohr))) w /\
         a_at (c_total g') i j k = round_sig sig (w * (volume (c_matrix g') * (bohr * bohr * bohr)))%Q).
Proof.
  rewrite <- charges_given. intros OK. destruct (cube_roundtrip sample g charges None OK) as (g' & q' & o' & vals & sig & E & [B1 B2 B3 B4 B5 B6] & _). exists g', q', o', sig. split; [exact E|]. split; [exact B1|]. split; [exact B2|]. split; [|split; [exact B4|exact B6]].
  revert B3. generalize (c_sites g) (c_sites g'). intros l l' F. induction F as [|s s' l l' [H1 H2] F IH]; constructor; [|exact IH]. split; [exact H1|]. destruct (snd s) as [[x y] z], (snd s') as [[x' y'] z']. cbn [origin_or vsub rel3] in *. destruct H2 as (A & B & C). repeat split; (eapply near_by_eq; [|eassumption]); ring.
Qed.
(** The charges of the ions and any origin come back as well; the atoms are then read relative to the origin. *)
Theorem C30_origin sample g charges o : cube_ok g (charges_or g charges) o ->
  exists g' q' o' sig, read_cube sample (fst (write_cube g charges (Some o))) = Some (g', q', o', sig) /\ rel3 (near_by micro) o o' /\
    Forall2 (fun s s' => fst s' = fst s /\ rel3 (near_by (2 * micro)) (vsub (snd s) o) (snd s')) (c_sites g) (c_sites g').
Proof. intros OK. destruct (cube_roundtrip sample g charges (Some o) OK) as (g' & q' & o' & vals & sig & E & [B1 B2 B3 B4 B5 B6] & _). exists g', q', o', sig. auto. Qed.
(** The number of figures guessed for a written file is at most six, unless the file holds nothing but zeros. *)
Theorem C30_figures sample g charges origin : (forall l, incl (sample l) l) -> cube_ok g (charges_or g charges) (origin_or origin) ->
  exists g' q' o' sig, read_cube sample (fst (write_cube g charges origin)) = Some (g', q', o', sig) /\
    (1 <= sig <= 6 \/ forall x, In x (ravel (c_total g)) -> (x / (volume (c_matrix g) * (bohr * bohr * bohr)) == 0)%Q).
Proof.
  intros S OK. destruct (cube_roundtrip sample g charges origin OK) as (g' & q' & o' & vals & sig & E & _ & ES & NR). exists g', q', o', sig. split; [exact E|]. subst sig. unfold infer. set (nz := filter (fun q => negb (Qeq_bool q 0)) vals).
  destruct nz as [|v0 r0] eqn:EN.
  - right. intros x I. apply (in_map (fun x => x / (volume (c_matrix g) * (bohr * bohr * bohr)))%Q) in I. revert I NR EN. unfold nz. generalize (map (fun x => x / (volume (c_matrix g) * (bohr * bohr * bohr)))%Q (ravel (c_total g))). intros l I NR EN. set (y := (x / (volume (c_matrix g) * (bohr * bohr * bohr)))%Q) in *.
    clearbody y. clear - I NR EN. revert I EN. induction NR as [|a v l vals N1 NR IH]; [intros []|]. cbn [filter]. intros I EN. destruct (Qeq_bool v 0) eqn:V; cbn [negb] in EN; [|discriminate]. destruct I as [<-|I]; [|now apply IH]. apply Qeq_bool_iff in V. destruct N1 as [[Z0 _]|(k & K1 & K2 & K3 & _)]; [exact Z0|]. exfalso. rewrite V in K3. pose proof (pow10_pos (k - 5)) as P. assert (P5 : (pow10 k == 100000 * pow10 (k - 5))%Q) by (replace k with (k - 5 + 5) at 1 by lia; rewrite pow10_add; change (pow10 5) with 100000%Q; ring). rewrite P5 in K1.
    assert (AA : (Qabs (0 - a) == Qabs a)%Q) by (rewrite <- Qabs_opp; apply Qabs_wd; ring). rewrite AA in K3. lra.
  - rewrite <- EN. assert (NIL : is_nil nz = false) by now rewrite EN. rewrite NIL. left. set (l := if Nat.ltb 1000 (length nz) then sample nz else nz).
    assert (C6 : close_all 6 l).
    { intros v I. assert (IV : In v vals). { assert (I' : In v nz) by (unfold l in I; destruct (Nat.ltb 1000 (length nz)); [now apply S|exact I]). unfold nz in I'. now apply filter_In in I'. }
      assert (D : exists m e, Z.abs m <= 10 ^ 6 /\ (v == inject_Z m * pow10 e)%Q).
      { clear - NR IV. induction NR as [|a w l vals N1 NR IH]; [destruct IV|]. destruct IV as [<-|IV]; [|now apply IH]. destruct N1 as [[_ Z0]|(k & _ & _ & _ & m & e & M & V)]; [exists 0, 0; split; [cbn; lia|rewrite Z0; reflexivity]|exists m, e; split; [change (10 ^ 6) with 1000000; lia|exact V]]. }
      destruct D as (m & e & M & V). pose proof (round_sig_exact 6 v m e ltac:(lia) M V) as R. assert (Z0 : (round_sig 6 v - v == 0)%Q) by (rewrite R; ring). rewrite Z0. reflexivity. }
    destruct (guess_correct l 20 1) as [G1 G2]. assert (U : guess 20 1 l <= 6). { destruct (Z_le_gt_dec (guess 20 1 l) 6) as [|G]; [assumption|]. exfalso. apply (G1 6 ltac:(lia) C6). }
    split; [destruct G2 as [[G2 _]|[G2 _]]; lia|exact U].
Qed.

(** C105: rounding to [n] significant figures gives a nearest number with [n] digits, leaves such numbers alone, and the
    guess is the smallest number of figures for which every sampled value is within 1e-15 of its rounding, or 20. *)
Theorem C105_round n q k : (pow10 k <= Qabs q)%Q -> (Qabs q < pow10 (k + 1))%Q ->
  (Qabs (round_sig n q - q) <= (1 # 2) * pow10 (k + 1 - n))%Q /\ exists m, (round_sig n q == inject_Z m * pow10 (k + 1 - n))%Q.
Proof. apply round_sig_near. Qed.
Theorem C105_exact n q m e : 1 <= n -> Z.abs m <= 10 ^ n -> (q == inject_Z m * pow10 e)%Q -> (round_sig n q == q)%Q.
Proof. apply round_sig_exact. Qed.
Theorem C105_idempotent n q : 1 <= n -> (round_sig n (round_sig n q) == round_sig n q)%Q.
Proof.
  intros N. destruct (Qeq_dec q 0) as [Z0|NZ]; [rewrite (round_sig_zero n q Z0); now rewrite (round_sig_zero n 0) by reflexivity|]. destruct (floor_log_spec q NZ) as [A B]. set (k := floor_log q) in *. destruct (round_sig_near n q k A B) as [R (m & M)].
  apply (round_sig_exact n _ m (k + 1 - n) N); [|exact M]. assert (P := pow10_pos (k + 1 - n)). assert (E : (pow10 (k + 1) == inject_Z (10 ^ n) * pow10 (k + 1 - n))%Q) by (replace (k + 1) with (n + (k + 1 - n)) at 1 by lia; rewrite pow10_add, (pow10_Z n) by lia; reflexivity).
  assert (U : (Qabs (round_sig n q) < (inject_Z (10 ^ n) + 1) * pow10 (k + 1 - n))%Q).
  { eapply Qle_lt_trans; [|assert (X : (Qabs q + (1 # 2) * pow10 (k + 1 - n) < (inject_Z (10 ^ n) + 1) * pow10 (k + 1 - n))%Q) by (rewrite E in B; lra); exact X].
    setoid_replace (round_sig n q) with (q + (round_sig n q - q))%Q by ring. eapply Qle_trans; [apply Qabs_triangle|]. lra. }
  rewrite M, Qabs_Qmult, (Qabs_pos (pow10 (k + 1 - n))) in U by lra. apply Qmult_lt_r in U; [|exact P]. change (Qabs (inject_Z m)) with (inject_Z (Z.abs m)) in U. change 1%Q with (inject_Z 1) in U. rewrite <- inject_Z_plus, <- Zlt_Qlt in U. lia.
Qed.
Theorem C105_infer sample vals : let r := infer sample vals in let nonzero := filter (fun q => negb (Qeq_bool q 0)) vals in let l := if Nat.ltb 1000 (length nonzero) then sample nonzero else nonzero in
  (nonzero = [] /\ r = 20) \/
  (nonzero <> [] /\ 1 <= r <= 20 /\ (forall n, 1 <= n < r -> exists v, In v l /\ (pow10 (-15) <= Qabs (round_sig n v - v))%Q) /\
   (r < 20 -> forall v, In v l -> (Qabs (round_sig r v - v) < pow10 (-15))%Q)).
Proof.
  cbv zeta. unfold infer. set (nz := filter (fun q => negb (Qeq_bool q 0)) vals). destruct nz as [|v0 r0] eqn:EN; [left; auto|]. rewrite <- EN. right. split; [congruence|]. assert (NIL : is_nil nz = false) by now rewrite EN. rewrite NIL. set (l := if Nat.ltb 1000 (length nz) then sample nz else nz). clearbody l. destruct (guess_correct l 20 1) as [G1 G2].
  split; [destruct G2 as [[G2 _]|[G2 _]]; lia|]. split.
  - intros n N. apply G1 in N. clear G1 G2 NIL EN. assert (D : (forall v, In v l -> (Qabs (round_sig n v - v) < pow10 (-15))%Q) \/ exists v, In v l /\ (pow10 (-15) <= Qabs (round_sig n v - v))%Q).
    { clear N. induction l as [|x l IH]; [left; intros v []|]. destruct (Qlt_le_dec (Qabs (round_sig n x - x)) (pow10 (-15))) as [L|L]; [|right; exists x; split; [now left|exact L]]. destruct IH as [IH|(v & I & V)]; [left; intros v [<-|I]; auto|right; exists v; split; [now right|exact V]]. }
    destruct D as [D|D]; [contradiction|exact D].
  - intros R v I. destruct G2 as [[_ G2]|[G2 _]]; [now apply G2|lia].
Qed.

(** ** What goes wrong *)
Definition cube_head (n : string) (counts : list string) : text := nl (lit "title") ++ nl (lit "comment") ++ nl (lit n ++ lit " 0.0 0.0 0.0") ++ List.concat (map (fun s => nl (lit s)) counts).
Lemma read_check sample f (p : cgrid -> bool) : match read_cube sample f with Some (g, _, _, _) => p g | None => false end = true ->
  exists g q o sig, read_cube sample f = Some (g, q, o, sig) /\ p g = true.
Proof. intros H. destruct (read_cube sample f) as [[[[g q] o] sig]|]; [|discriminate]. eauto 10. Qed.
(** C101: the values of a uniform file are cut to one significant figure after the conversion. *)
Definition uniform_file : text := cube_head "0" ["1 12.34 0.0 0.0"; "1 0.0 10.0 0.0"; "2 0.0 0.0 0.5"]%string ++ nl (lit " 1.00000E+00 1.00000E+00").
Theorem C101_uniform_refuted sample : exists g q o sig, read_cube sample uniform_file = Some (g, q, o, sig) /\ (volume (c_matrix g) * (bohr * bohr * bohr) == 1234 # 10)%Q /\ (a_at (c_total g) 0 0 1 == 100)%Q.
Proof.
  destruct (read_check sample uniform_file (fun g => Qeq_bool (volume (c_matrix g) * (bohr * bohr * bohr)) (1234 # 10) && Qeq_bool (a_at (c_total g) 0 0 1) 100)) as (g & q & o & sig & E & H); [vm_compute; reflexivity|].
  apply andb_prop in H as [H1 H2]. exists g, q, o, sig. repeat split; [exact E|now apply Qeq_bool_iff|now apply Qeq_bool_iff].
Qed.

(** C102: in a cube file the last index runs fastest; the file is read with the first one fastest. *)
Definition ordered_file : text := cube_head "0" ["2 0.5 0.0 0.0"; "1 0.0 1.0 0.0"; "2 0.0 0.0 0.5"]%string ++ nl (lit " 1.00000E+00 2.00000E+00 3.00000E+00 4.00000E+00").
Theorem C102_order_refuted sample : exists g q o sig, read_cube sample ordered_file = Some (g, q, o, sig) /\ (volume (c_matrix g) * (bohr * bohr * bohr) == 1)%Q /\ (a_at (c_total g) 0 0 1 == 3)%Q /\ (a_at (c_total g) 1 0 0 == 2)%Q.
Proof.
  destruct (read_check sample ordered_file (fun g => Qeq_bool (volume (c_matrix g) * (bohr * bohr * bohr)) 1 && Qeq_bool (a_at (c_total g) 0 0 1) 3 && Qeq_bool (a_at (c_total g) 1 0 0) 2)) as (g & q & o & sig & E & H); [vm_compute; reflexivity|].
  apply andb_prop in H as [H H3]. apply andb_prop in H as [H1 H2]. exists g, q, o, sig. repeat split; [exact E|now apply Qeq_bool_iff|now apply Qeq_bool_iff|now apply Qeq_bool_iff].
Qed.

(** C103: the caller's origin is scaled in place. *)
Definition cube_grid : cgrid := CGrid ((2, 0, 0), (0, 2, 0), (0, 0, 2))%Q [(8, (1, 1, 1)%Q)] (Arr (2, 1, 2) (fun i _ k => inject_Z (i + 2 * k))).
Theorem C103_origin_refuted : exists o, snd (write_cube cube_grid None (Some o)) <> Some o.
Proof. exists (1, 0, 0)%Q. vm_compute. discriminate. Qed.

(** C104: a negative number of atoms, as in files of orbitals, is not understood. *)
Theorem C104_orbital_refuted sample : exists body, (exists r, read_cube sample (cube_head "1" ["1 1.0 0.0 0.0"; "1 0.0 1.0 0.0"; "1 0.0 0.0 1.0"]%string ++ nl (lit "1 0.0 0.0 0.0 0.0") ++ body) = Some r) /\
  read_cube sample (cube_head "-1" ["1 1.0 0.0 0.0"; "1 0.0 1.0 0.0"; "1 0.0 0.0 1.0"]%string ++ nl (lit "1 0.0 0.0 0.0 0.0") ++ nl (lit "1 1") ++ body) = None.
Proof.
  exists (nl (lit " 1.00000E+00")). split; [|vm_compute; reflexivity]. match goal with |- exists r, read_cube _ ?f = _ => destruct (read_check sample f (fun _ => true)) as (g & q & o & sig & E & _) end; [vm_compute; reflexivity|]. rewrite E. eauto.
Qed.

(** The hypotheses can be met. *)
Example ex_cube_ok o : all3 (small 3) (vscale bohr o) -> cube_ok cube_grid (charges_or cube_grid None) o.
Proof.
  intros O. split; cbn [cube_grid c_total a_shape c_matrix c_sites].
  - lia.
  - vm_compute. repeat split.
  - cbn. lia.
  - repeat constructor; cbn; try lia; vm_compute; reflexivity.
  - repeat constructor.
  - exact O.
  - intros i j k I J K. cbn [a_at]. assert (C : i + 2 * k = 0 \/ i + 2 * k = 1 \/ i + 2 * k = 2 \/ i + 2 * k = 3) by lia. destruct C as [-> |[-> |[-> | ->]]]; [left; reflexivity|right|right|right]; (split; [apply Qle_trans with (1 # 1000)%Q; [apply (Qle_trans _ (pow10 (-3))); [apply pow10_mono; lia|discriminate]|vm_compute; discriminate]|apply Qlt_le_trans with 1%Q; [vm_compute; reflexivity|apply (pow10_mono 0 999); lia]]).
Qed.
(** C100: with an origin the atoms are read back at other places. *)
Theorem C100_origin_refuted sample : exists g o g' q' o' sig z x y w z' x' y' w', cube_ok g (charges_or g None) o /\ read_cube sample (fst (write_cube g None (Some o))) = Some (g', q', o', sig) /\
  c_sites g = [(z, (x, y, w))] /\ c_sites g' = [(z', (x', y', w'))] /\ (1 # 2 < x - x')%Q.
Proof.
  assert (OK : cube_ok cube_grid (charges_or cube_grid None) (1, 0, 0)%Q) by (apply ex_cube_ok; repeat split; vm_compute; reflexivity).
  destruct (C30_origin sample cube_grid None _ OK) as (g' & q' & o' & sig & E & _ & S). exists cube_grid, (1, 0, 0)%Q, g', q', o', sig. cbn [cube_grid c_sites] in S. inversion S as [|s [z' [[x' y'] w']] l l' [H1 H2] F EL]; subst. inversion F; subst.
  exists 8, 1%Q, 1%Q, 1%Q, z', x', y', w'. split; [exact OK|]. split; [exact E|]. split; [reflexivity|]. split; [reflexivity|]. destruct H2 as [A _]. unfold near_by in A. apply Qabs_Qle_condition in A. assert (MB : (2 * micro < 1 # 4)%Q) by reflexivity. lra.
Qed.

(** ** Examples *)
Example ex_cube_read : option_map (fun '(g, _, _, sig) => (map (fun '(i, j, k) => Qred (a_at (c_total g) i j k)) (voxels 2 1 2), sig)) (read_cube (fun l => l) (fst (write_cube cube_grid None None))) = Some ([0; 2; 1; 3]%Q, 6).
Proof. vm_compute. reflexivity. Qed.
Example ex_round : Qred (round_sig 3 (-(12345) # 1000)) = (-(123) # 10)%Q.
Proof. vm_compute. reflexivity. Qed.
Example ex_infer : infer (fun l => l) [0; 1 # 2; 125 # 100]%Q = 3.
Proof. vm_compute. reflexivity. Qed.

Print Assumptions C30_roundtrip.
Print Assumptions C30_origin.
Print Assumptions C30_figures.
Print Assumptions C100_origin_refuted.
Print Assumptions C101_uniform_refuted.
Print Assumptions C102_order_refuted.
Print Assumptions C103_origin_refuted.
Print Assumptions C104_orbital_refuted.
Print Assumptions C105_round.
Print Assumptions C105_exact.
Print Assumptions C105_idempotent.
Print Assumptions C105_infer.
