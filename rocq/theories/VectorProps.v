(** Non-collinear VASP files: the total and three components of the magnetisation. *)
From Coq Require Import Ascii String QArith Qround Qabs Lqa Lia.
From Verif Require Import Base GridModel GridProofs ChargeModel NearModel NearProofs TextModel TextProofs FmtProofs GobjModel VaspModel VaspProofs VaspTop VaspProps.
Local Open Scope Z_scope.

(** A grid with exactly the arrays total, diff_x, diff_y and diff_z, that fits the columns of the format. *)
Record vector_grid (s : Z * Z * Z) (g : vgrid) : Prop := {
  vg_matrix : let '(a, b, c) := v_matrix g in all3 (small 3) a /\ all3 (small 3) b /\ all3 (small 3) c;
  vg_sites : Forall (fun x => (word (fst x) /\ (length (fst x) <= 4)%nat) /\ all3 (small 1) (snd x)) (v_sites g);
  vg_count : Z.of_nat (length (v_sites g)) < 100000;
  vg_dims : let '(nx, ny, nz) := s in 1 <= nx < 100000 /\ 1 <= ny < 100000 /\ 1 <= nz < 100000;
  vg_data : forall k, match lookup k (v_data g) with Some a => k <> Diff /\ good_arr s a | None => k = Diff end;
  vg_aug : forall k ls, lookup k (v_aug g) = Some (AugLines ls) -> Forall (plain_line s) ls }.

Lemma aug_lines s g k : vector_grid s g -> exists ls, aug_of g k = List.concat ls /\ Forall (good_line (nl (dims_text s))) ls.
Proof.
  intros ST. unfold aug_of. destruct (lookup k (v_aug g)) as [a|] eqn:E; [|exists []; split; [reflexivity|constructor]]. apply good_aug_lines. destruct a as [t|ls]; cbn [aug_items].
  - intros l I. apply in_map_iff in I as (c & <- & _). destruct (ascii_dec c newline) as [->|N].
    + exists []. split; [right; reflexivity|]. split; [intros []|]. intros Q. apply (f_equal solid) in Q. rewrite !solid_strip in Q. apply (f_equal (@length ascii)) in Q. change (length (solid (nl []))) with 0%nat in Q. destruct s as [[nx ny] nz]. unfold nl, dims_text in Q. rewrite !solid_app, !app_length in Q. pose proof (solid_int 6 nx). lia.
    + exists [c]. split; [left; reflexivity|]. split; [intros [X|[]]; congruence|apply char_not_dims].
  - intros l I. pose proof (vg_aug _ _ ST k ls E) as F. rewrite Forall_forall in F. exact (F l I).
Qed.

(** The scalar of a vector: its length with the sign of its product with (1.01, 1.02, 1.03). *)
Definition signed_length (root : Q -> Q) (x y z d : Q) : Prop :=
  let p := ((101 * x + 102 * y + 103 * z) / 100)%Q in let n := root (x * x + y * y + z * z)%Q in
  ((0 < p)%Q -> (d == n)%Q) /\ ((p < 0)%Q -> (d == - n)%Q) /\ ((p == 0)%Q -> (d == 0)%Q).
Lemma magnitude_spec root s x y z i j k :
  signed_length root (a_at x i j k) (a_at y i j k) (a_at z i j k) (a_at (magnitude root s x y z) i j k).
Proof.
  unfold signed_length, magnitude. cbn [a_at]. set (a := a_at x i j k). set (b := a_at y i j k). set (c := a_at z i j k). cbv zeta.
  set (n := root _). set (p := ((101 # 100) * a + (102 # 100) * b + (103 # 100) * c)%Q). assert (E : ((101 * a + 102 * b + 103 * c) / 100 == p)%Q) by (unfold p; field). rewrite E. unfold qsgn.
  destruct (Qltb 0 p) eqn:L; [apply Qltb_lt in L; split; [intros _; ring|split; intros H; lra]|]. destruct (Qltb p 0) eqn:M; [apply Qltb_lt in M; split; [intros H; lra|split; [intros _; ring|intros H; lra]]|].
  apply Qltb_ge in L. apply Qltb_ge in M. split; [intros H; lra|split; [intros H; lra|intros _; ring]].
Qed.

(** C155: a file with the total and the three components is read back with every array, and every value, in its
    place, and the difference is the signed length of the vector read. *)
Theorem C155_vector root s g : vector_grid s g -> exists g' x y z d, read_vasp root false (write_vasp false g) = Some g' /\ same_file g g' /\
  (forall k a, lookup k (v_data g) = Some a -> exists b, lookup k (v_data g') = Some b /\ arr_near a b /\ lookup k (v_aug g') = Some (AugText (aug_of g k))) /\
  lookup DiffX (v_data g') = Some x /\ lookup DiffY (v_data g') = Some y /\ lookup DiffZ (v_data g') = Some z /\ lookup Diff (v_data g') = Some d /\ a_shape d = s /\
  forall i j k, signed_length root (a_at x i j k) (a_at y i j k) (a_at z i j k) (a_at d i j k).
Proof.
  intros ST. destruct s as [[nx ny] nz]. assert (D := vg_dims _ _ ST). cbn in D. destruct D as (X & Y & Z0).
  assert (GET : forall k, k <> Diff -> exists a, lookup k (v_data g) = Some a /\ good_arr (nx, ny, nz) a) by (intros k K; pose proof (vg_data _ _ ST k) as H; destruct (lookup k (v_data g)) as [a|]; [exists a; split; [reflexivity|apply H]|congruence]).
  assert (ND : lookup Diff (v_data g) = None) by (pose proof (vg_data _ _ ST Diff) as H; destruct (lookup Diff (v_data g)) as [a|]; [destruct H; congruence|reflexivity]).
  destruct (GET Total ltac:(discriminate)) as (t & T & GT). destruct (GET DiffX ltac:(discriminate)) as (ax & TX & GX). destruct (GET DiffY ltac:(discriminate)) as (ay & TY & GY). destruct (GET DiffZ ltac:(discriminate)) as (az & TZ & GZ).
  assert (WR : forall k a, lookup k (v_data g) = Some a -> good_arr (nx, ny, nz) a -> write_set g k = nl (dims_text (nx, ny, nz)) ++ block (map pair_of (ravel a)) ++ aug_of g k).
  { intros k a E [S _]. unfold write_set. rewrite E, S, write_data_block. reflexivity. }
  destruct (aug_lines _ g Total ST) as (lt & ET & FT). destruct (aug_lines _ g DiffX ST) as (lx & EX & FX). destruct (aug_lines _ g DiffY ST) as (ly & EY & FY). destruct (aug_lines _ g DiffZ ST) as (lz & EZ & FZ).
  set (rest := [set_of ax lx; set_of ay ly; set_of az lz]).
  assert (EW : List.concat (map (write_set g) [Total; Diff; DiffX; DiffY; DiffZ]) = nl (dims_text (nx, ny, nz)) ++ block (fst (set_of t lt)) ++ List.concat (snd (set_of t lt)) ++ after (nl (dims_text (nx, ny, nz))) rest).
  { cbn [map List.concat]. unfold write_set at 2. rewrite ND. cbn [app]. rewrite (WR Total t T GT), (WR DiffX ax TX GX), (WR DiffY ay TY GY), (WR DiffZ az TZ GZ). unfold rest. cbn [after set_of fst snd]. rewrite ET, EX, EY, EZ, !app_nil_r, <- !app_assoc. reflexivity. }
  unfold write_vasp.
  assert (RL : readline (List.concat (map (write_set g) [Total; Diff; DiffX; DiffY; DiffZ])) = (nl (dims_text (nx, ny, nz)), block (fst (set_of t lt)) ++ List.concat (snd (set_of t lt)) ++ after (nl (dims_text (nx, ny, nz))) rest)) by (rewrite EW; apply readline_nl, dims_no_newline).
  destruct (read_header root false g _ _ _ (vg_matrix _ _ ST) (vg_sites _ _ ST) (vg_count _ _ ST) RL) as (m & sites & SF & ER). rewrite ER.
  assert (GS := good_set_of nx ny nz t lt ltac:(lia) ltac:(lia) ltac:(lia) GT FT).
  assert (FR : Forall (good_set (nl (dims_text (nx, ny, nz))) (Z.to_nat (nx * ny * nz))) rest) by (unfold rest; do 3 (apply Forall_cons; [apply good_set_of; auto; lia|]); apply Forall_nil).
  destruct (read_sets root false nx ny nz t lt rest X Y Z0 GS FR) as (rs & E & G). rewrite E. unfold rest in G.
  inversion G as [|r s0 rs' r' GR GR' E1 E2]; subst. inversion GR' as [|r2 s2 rs2 r2' GR2 GR2' E1 E2]; subst. inversion GR2' as [|r3 s3 rs3 r3' GR3 GR3' E1 E2]; subst. inversion GR3' as [|r4 s4 rs4 r4' GR4 GR4' E1 E2]; subst. inversion GR4'; subst.
  destruct (reshape_near nx ny nz t lt r ltac:(lia) ltac:(lia) ltac:(lia) GT GR) as [NT AT]. destruct (reshape_near nx ny nz ax lx r2 ltac:(lia) ltac:(lia) ltac:(lia) GX GR2) as [NX AX]. destruct (reshape_near nx ny nz ay ly r3 ltac:(lia) ltac:(lia) ltac:(lia) GY GR3) as [NY AY]. destruct (reshape_near nx ny nz az lz r4 ltac:(lia) ltac:(lia) ltac:(lia) GZ GR4) as [NZ AZ].
  destruct r as [vt at_], r2 as [vx ax_], r3 as [vy ay_], r4 as [vz az_]. cbn [sets obnd fst snd] in *.
  eexists _, _, _, _, _. split; [reflexivity|]. split; [exact SF|]. cbn [v_data v_aug]. split; [|do 5 (split; [reflexivity|]); intros i j k; apply magnitude_spec].
  intros k a K. destruct k; try congruence.
  - rewrite T in K. injection K as <-. eexists. split; [reflexivity|]. split; [exact NT|]. cbn [lookup key_eqb]. now rewrite AT, ET.
  - rewrite TX in K. injection K as <-. eexists. split; [reflexivity|]. split; [exact NX|]. cbn [lookup key_eqb]. now rewrite AX, EX.
  - rewrite TY in K. injection K as <-. eexists. split; [reflexivity|]. split; [exact NY|]. cbn [lookup key_eqb]. now rewrite AY, EY.
  - rewrite TZ in K. injection K as <-. eexists. split; [reflexivity|]. split; [exact NZ|]. cbn [lookup key_eqb]. now rewrite AZ, EZ.
Qed.
Print Assumptions C155_vector.

(** A grid of two points with different components. *)
Definition vec_file : vgrid := VGrid unit_mat one_atom [(Total, row_grid 2 (fun i => inject_Z (i + 9))); (DiffX, row_grid 2 (fun i => inject_Z (i + 2))); (DiffY, row_grid 2 (fun i => inject_Z (- 5 * i))); (DiffZ, row_grid 2 (fun i => inject_Z 0))] [].
Example ex_vec_file : vector_grid (2, 1, 1) vec_file.
Proof.
  assert (F : forall m, -10 < m < 12 -> fits (inject_Z m)).
  { intros m M. assert (C : m = 0 \/ (exists e, (e = 1 \/ e = 2) /\ m <> 0 /\ (10 ^ (e - 1) <= Z.abs m < 10 ^ e))).
    { destruct (Z.eq_dec m 0); [now left|right]. destruct (Z_lt_dec (Z.abs m) 10); [exists 1|exists 2]; cbn; lia. }
    assert (A : m = 0 \/ m = 1 \/ m = 2 \/ m = 3 \/ m = 4 \/ m = 5 \/ m = 6 \/ m = 7 \/ m = 8 \/ m = 9 \/ m = 10 \/ m = 11 \/ m = -1 \/ m = -2 \/ m = -3 \/ m = -4 \/ m = -5 \/ m = -6 \/ m = -7 \/ m = -8 \/ m = -9) by lia. clear C.
    repeat (destruct A as [->|A]; [first [left; reflexivity|right; exists 1; split; [lia|]; split; [split; vm_compute; congruence|reflexivity]|right; exists 2; split; [lia|]; split; [split; vm_compute; congruence|reflexivity]]|]).
    subst m. right; exists 1; split; [lia|]; split; [split; vm_compute; congruence|reflexivity]. }
  split; cbn [v_matrix v_sites v_data v_aug vec_file unit_mat one_atom].
  - cbn. repeat split; reflexivity.
  - constructor; [|constructor]. split; [split; [|cbn; lia]|]. + split; [discriminate|]. repeat constructor. + cbn. repeat split; reflexivity.
  - cbn. lia.
  - lia.
  - intros k. destruct k; cbn [lookup key_eqb]; try reflexivity; (split; [discriminate|]; split; [reflexivity|]; intros i j k' I _ _; cbn [row_grid a_at]; apply F; lia).
  - intros k ls. cbn. destruct k; discriminate.
Qed.
(** The root is only asked for at 4 and at 34: the second vector is (3, -5, 0), whose sign is negative. *)
Example ex_vec_read : option_map (fun g => map (fun k => match lookup k (v_data g) with Some a => map (fun i => Qred (a_at a i 0 0)) [0; 1] | None => [] end) [Total; DiffX; DiffY; DiffZ; Diff])
    (read_vasp (fun q => if Qeq_bool q 4 then 2%Q else q) false (write_vasp false vec_file)) = Some [[9; 10]; [2; 3]; [0; -(5)]; [0; 0]; [2; -(34)]]%Q.
Proof. vm_compute. reflexivity. Qed.
