(** Reading a written cube file. *)
From Coq Require Import Ascii String QArith Qround Qabs Lqa Lia.
From Verif Require Import Base GridModel GridProofs ChargeModel NearModel NearSpec NearProofs TextModel TextProofs FmtProofs GobjModel VaspModel VaspProofs VaspTop CubeModel CubeProofs.
Local Open Scope Z_scope.

Lemma row_items v : all3 (small 3) v -> exists l, row_text 12 v = List.concat (map (fun '(k, w) => repeat space k ++ w) l) /\ Forall (fun '(k, w) => (1 <= k)%nat /\ word w) l /\
  exists v', obnd (map_opt float_of (map snd l)) vec_of = Some v' /\ rel3 near_micro v v'.
Proof.
  destruct v as [[x y] z]. intros (X & Y & Z0). unfold row_text. destruct (f6_item 12 3 x ltac:(lia) ltac:(lia) X) as (nx & NX & ->). destruct (f6_item 12 3 y ltac:(lia) ltac:(lia) Y) as (ny & NY & ->). destruct (f6_item 12 3 z ltac:(lia) ltac:(lia) Z0) as (nz & NZ & ->).
  exists [(nx, fixed_body x); (ny, fixed_body y); (nz, fixed_body z)]. split; [cbn [map List.concat]; now rewrite app_nil_r|]. split; [repeat constructor; auto using fixed_word; apply fixed_word|]. cbn [map snd map_opt].
  destruct (fixed_float x) as (a & EA & RA). destruct (fixed_float y) as (b & EB & RB). destruct (fixed_float z) as (c & EC & RC). rewrite EA, EB, EC. cbn [obnd vec_of]. eexists. split; [reflexivity|]. repeat split; try apply RA; try apply RB; try apply RC.
Qed.
Lemma no_newline_app a b : ~ In newline a -> ~ In newline b -> ~ In newline (a ++ b).
Proof. intros A B I. apply in_app_iff in I as [I|I]; auto. Qed.
Lemma count_line_spec n v r : 0 <= n < 10000 -> all3 (small 3) v -> exists v', count_line (count_text n v ++ r) = Some (n, v', r) /\ rel3 near_micro v v'.
Proof.
  intros N V. unfold count_line, count_text. rewrite readline_nl by (apply no_newline_app; [apply fmt_int_no_newline|apply row_no_newline]). destruct (int_item 5 n 4 ltac:(lia) ltac:(lia) ltac:(lia)) as (j & J & E). destruct (row_items v V) as (l & EL & FL & v' & EV & RV).
  unfold nl. rewrite E, EL. change ((repeat space j ++ str_int n) ++ List.concat (map (fun '(k, w) => repeat space k ++ w) l)) with (List.concat (map (fun '(k, w) => repeat space k ++ w) ((j, str_int n) :: l))). rewrite split_items; [|constructor; [split; [exact J|apply str_int_word]|exact FL]|exact nl_blank].
  cbn [map snd]. rewrite int_of_str. cbn [obnd]. unfold text in *. rewrite EV. cbn [obnd]. eauto.
Qed.
Definition good_atom (a : (Z * vec) * Q) : Prop := 0 <= fst (fst a) < 10000 /\ all3 (small 3) (snd (fst a)) /\ small 3 (snd a).
Lemma atom_line_spec s q r n : good_atom (s, q) -> exists q' v', near_micro q q' /\ rel3 near_micro (snd s) v' /\
  atom_lines (S n) (atom_text s q ++ r) = obnd (atom_lines n r) (fun '(l, t) => Some ((fst s, q', v') :: l, t)).
Proof.
  destruct s as [z v]. intros (N & V & W). cbn [fst snd] in *. cbn [atom_lines]. unfold atom_text. cbn [fst snd]. rewrite readline_nl by (apply no_newline_app; [apply fmt_int_no_newline|apply no_newline_app; [apply fixed_no_newline|apply row_no_newline]]).
  destruct (int_item 5 z 4 ltac:(lia) ltac:(lia) ltac:(lia)) as (j & J & E). destruct (row_items v V) as (l & EL & FL & v' & EV & RV). destruct (f6_item 12 3 q ltac:(lia) ltac:(lia) W) as (i & I & EQ). destruct (fixed_float q) as (q' & FQ & NQ).
  unfold nl. rewrite E, EQ, EL. change ((repeat space j ++ str_int z) ++ (repeat space i ++ fixed_body q) ++ List.concat (map (fun '(k, w) => repeat space k ++ w) l)) with (List.concat (map (fun '(k, w) => repeat space k ++ w) ((j, str_int z) :: (i, fixed_body q) :: l))). rewrite split_items; [|constructor; [split; [exact J|apply str_int_word]|constructor; [split; [exact I|apply fixed_word]|exact FL]]|exact nl_blank].
  cbn [map snd]. rewrite int_of_str. cbn [obnd]. rewrite FQ. cbn [obnd]. unfold text in *. rewrite EV. cbn [obnd]. exists q', v'. auto.
Qed.
Lemma atom_lines_spec r : forall atoms, Forall good_atom atoms -> exists l, atom_lines (length atoms) (List.concat (map (fun '(s, q) => atom_text s q) atoms) ++ r) = Some (l, r) /\
  Forall2 (fun (a : (Z * vec) * Q) (b : Z * Q * vec) => let '(z, v, q) := a in let '(z', q', v') := b in z' = z /\ near_micro q q' /\ rel3 near_micro v v') atoms l.
Proof.
  induction atoms as [|[s q] atoms IH]; intros F; [exists []; split; [reflexivity|constructor]|]. inversion F as [|? ? G F']; subst. destruct (IH F') as (l & E & R). cbn [map List.concat length]. rewrite <- app_assoc. destruct (atom_line_spec s q (List.concat (map (fun '(s, q) => atom_text s q) atoms) ++ r) (length atoms) G) as (q' & v' & Q & V & E'). rewrite E', E. cbn [obnd].
  eexists. split; [reflexivity|]. constructor; [|exact R]. destruct s as [z v]. auto.
Qed.

(** ** What can be written *)
Definition near_by (d q v : Q) : Prop := (Qabs (v - q) <= d)%Q.
Record cube_ok (g : cgrid) (charges : list Q) (o : vec) : Prop := {
  ck_dims : let '(nx, ny, nz) := a_shape (c_total g) in 1 <= nx < 10000 /\ 1 <= ny < 10000 /\ 1 <= nz < 10000;
  ck_matrix : let '(nx, ny, nz) := a_shape (c_total g) in let '(a, b, c) := c_matrix g in all3 (small 3) (voxel_vector nx a) /\ all3 (small 3) (voxel_vector ny b) /\ all3 (small 3) (voxel_vector nz c);
  ck_count : Z.of_nat (length (c_sites g)) < 10000 /\ length charges = length (c_sites g);
  ck_sites : Forall (fun s => 0 <= fst s < 10000 /\ all3 (small 3) (vscale bohr (snd s))) (c_sites g);
  ck_charges : Forall (small 3) charges;
  ck_origin : all3 (small 3) (vscale bohr o);
  ck_values : let '(nx, ny, nz) := a_shape (c_total g) in forall i j k, 0 <= i < nx -> 0 <= j < ny -> 0 <= k < nz -> wide (a_at (c_total g) i j k / (volume (c_matrix g) * (bohr * bohr * bohr))) }.

Definition file_value (g : cgrid) (i j k : Z) : Q := (a_at (c_total g) i j k / (volume (c_matrix g) * (bohr * bohr * bohr)))%Q.
(** What is read back: [micro] is half a unit of the sixth decimal in Bohr. *)
Definition micro : Q := (1 # 2000000) / bohr.
Record cube_back (g : cgrid) (charges : list Q) (o : vec) (g' : cgrid) (charges' : list Q) (o' : vec) (sig : Z) : Prop := {
  cb_shape : a_shape (c_total g') = a_shape (c_total g);
  cb_matrix : let '(nx, ny, nz) := a_shape (c_total g) in let '(a, b, c) := c_matrix g in let '(a', b', c') := c_matrix g' in
    rel3 (near_by (inject_Z nx * micro)) a a' /\ rel3 (near_by (inject_Z ny * micro)) b b' /\ rel3 (near_by (inject_Z nz * micro)) c c';
  cb_sites : Forall2 (fun s s' => fst s' = fst s /\ rel3 (near_by (2 * micro)) (vsub (snd s) o) (snd s')) (c_sites g) (c_sites g');
  cb_charges : Forall2 near_micro charges charges';
  cb_origin : rel3 (near_by micro) o o';
  cb_values : let '(nx, ny, nz) := a_shape (c_total g) in forall i j k, 0 <= i < nx -> 0 <= j < ny -> 0 <= k < nz ->
    exists w, near6 (file_value g i j k) w /\ a_at (c_total g') i j k = round_sig sig (w * (volume (c_matrix g') * (bohr * bohr * bohr)))%Q }.

Lemma bohr_pos : (0 < bohr)%Q.
Proof. reflexivity. Qed.
Lemma micro_scaled (n : Z) q v : 1 <= n -> near_micro (q / inject_Z n * bohr) v -> near_by (inject_Z n * micro) q (v * inject_Z n / bohr).
Proof.
  intros N [A _]. unfold near_by, micro. assert (P : (0 < inject_Z n)%Q) by (change 0%Q with (inject_Z 0); rewrite <- Zlt_Qlt; lia).
  assert (E : (v * inject_Z n / bohr - q == (v - q / inject_Z n * bohr) * (inject_Z n / bohr))%Q) by (field; split; [discriminate|lra]). rewrite E, Qabs_Qmult. rewrite (Qabs_pos (inject_Z n / bohr)) by (apply Qlt_le_weak, Qlt_shift_div_l; [reflexivity|lra]).
  setoid_replace (inject_Z n * ((1 # 2000000) / bohr))%Q with ((1 # 2000000) * (inject_Z n / bohr))%Q by (field; discriminate). apply Qmult_le_compat_r; [exact A|]. apply Qlt_le_weak, Qlt_shift_div_l; [reflexivity|lra].
Qed.
Lemma micro_one q v : near_micro (q * bohr) v -> near_by micro q (v / bohr).
Proof.
  intros [A _]. unfold near_by, micro. assert (E : (v / bohr - q == (v - q * bohr) * (1 / bohr))%Q) by (field; discriminate). rewrite E, Qabs_Qmult. change (Qabs (1 / bohr)) with (1 / bohr)%Q. setoid_replace ((1 # 2000000) / bohr)%Q with ((1 # 2000000) * (1 / bohr))%Q by (field; discriminate). apply Qmult_le_compat_r; [exact A|discriminate].
Qed.
Lemma near_by_sub d e a a' b b' : near_by d a a' -> near_by e b b' -> near_by (d + e) (a - b) (a' - b').
Proof. unfold near_by. intros A B. apply Qabs_Qle_condition in A. apply Qabs_Qle_condition in B. apply Qabs_Qle_condition. lra. Qed.

Theorem cube_roundtrip sample g charges origin : let o := origin_or origin in let q := charges_or g charges in
  cube_ok g q o -> exists g' q' o' vals sig, read_cube sample (fst (write_cube g charges origin)) = Some (g', q', o', sig) /\ cube_back g q o g' q' o' sig /\
    sig = infer sample vals /\ Forall2 near6 (map (fun x => x / (volume (c_matrix g) * (bohr * bohr * bohr)))%Q (ravel (c_total g))) vals.
Proof.
  cbv zeta. set (o := origin_or origin). set (q := charges_or g charges). intros OK.
  unfold write_cube. fold o q. clearbody o q. destruct g as [m sites a] eqn:G. rewrite <- G in OK. destruct OK as [D M C S Q O V]. rewrite G in *. cbn [c_matrix c_sites c_total] in *. destruct a as [[[nx ny] nz] f]. cbn [a_shape a_at] in *. destruct m as [[va vb] vc]. destruct D as (DX & DY & DZ), M as (MA & MB & MC), C as [C1 C2].
  cbn [c_matrix c_sites c_total a_shape fst]. set (W := (volume (va, vb, vc) * (bohr * bohr * bohr))%Q) in *. unfold read_cube.
  rewrite readline_nl by (intros I; cbn in I; intuition discriminate). rewrite readline_nl by (intros I; cbn in I; intuition discriminate).
  match goal with |- context [count_line (count_text ?n ?v ++ ?r)] => destruct (count_line_spec n v r ltac:(lia) O) as (o' & EO & RO) end. rewrite EO. cbn [obnd].
  match goal with |- context [count_line (count_text ?n ?v ++ ?r)] => destruct (count_line_spec n v r ltac:(lia) MA) as (a' & EA & RA) end. rewrite EA. cbn [obnd].
  match goal with |- context [count_line (count_text ?n ?v ++ ?r)] => destruct (count_line_spec n v r ltac:(lia) MB) as (b' & EB & RB) end. rewrite EB. cbn [obnd].
  match goal with |- context [count_line (count_text ?n ?v ++ ?r)] => destruct (count_line_spec n v r ltac:(lia) MC) as (c' & EC & RC) end. rewrite EC. cbn [obnd].
  replace (Z.of_nat (length sites) <? 0) with false by lia. rewrite Nat2Z.id.
  set (atoms := map (fun '(s, q) => (bohr_site s, q)) (combine sites q)).
  assert (LA : length sites = length atoms) by (unfold atoms; rewrite map_length, combine_length; lia).
  assert (EAT : List.concat (map (fun '(s, q) => atom_text (bohr_site s) q) (combine sites q)) = List.concat (map (fun '(s, q) => atom_text s q) atoms)) by (unfold atoms; rewrite map_map; f_equal; apply map_ext; intros [s x]; reflexivity).
  assert (GA : Forall good_atom atoms).
  { unfold atoms. apply Forall_map, Forall_forall. intros [s x] I. assert (IS := in_combine_l _ _ _ _ I). assert (IQ := in_combine_r _ _ _ _ I). rewrite Forall_forall in S, Q. split; [apply (S s IS)|]. split; [apply (S s IS)|apply (Q x IQ)]. }
  rewrite EAT, LA. destruct (atom_lines_spec (cube_data (nx, ny, nz) (map (fun x => x / W)%Q (ravel (Arr (nx, ny, nz) f)))) atoms GA) as (l & EL & RL). rewrite EL. cbn [obnd].
  replace ((0 <=? nx) && (0 <=? ny) && (0 <=? nz)) with true by lia. rewrite !Z.abs_eq by lia.
  assert (LR := ravel_len (Arr (nx, ny, nz) f) nx ny nz eq_refl ltac:(lia) ltac:(lia) ltac:(lia)).
  assert (WV : Forall wide (map (fun x => x / W)%Q (ravel (Arr (nx, ny, nz) f)))).
  { apply Forall_map. unfold ravel, forder. cbn [a_shape]. apply Forall_map, Forall_map, Forall_forall. intros [[k j] i] I. apply in_voxels in I. cbn [a_at]. apply V; apply I. }
  destruct (from_data nx ny nz _ ltac:(lia) WV) as (vals & EV & RV). rewrite map_length, LR in EV. rewrite EV. assert (LV := Forall2_len _ _ _ RV). rewrite map_length, LR in LV. rewrite <- LV, Nat.ltb_irrefl.
  eexists _, _, _, vals, _. split; [reflexivity|]. split; [|split; [reflexivity|exact RV]]. clear EL EV EO EA EB EC. split; cbn [c_matrix c_sites c_total a_shape a_at].
  - reflexivity.
  - assert (K : forall n v v', 1 <= n -> rel3 near_micro (voxel_vector n v) v' -> rel3 (near_by (inject_Z n * micro)) v (vmap (fun x => x / bohr)%Q (vscale (inject_Z n) v'))).
    { intros n [[x y] z] [[x' y'] z'] N (X & Y & Z0). cbn in *. repeat split; now apply micro_scaled. }
    repeat split; apply K; (lia || assumption).
  - clear - RL RO C2. assert (OO : rel3 (near_by micro) o (vmap (fun x => x / bohr)%Q o')) by (destruct o as [[x y] z], o' as [[x' y'] z']; cbn in *; destruct RO as (A & B & D); repeat split; now apply micro_one). set (oo := vmap (fun x => x / bohr)%Q o') in *. clearbody oo. clear RO. unfold atoms in RL. clear atoms. revert q l C2 RL. induction sites as [|s sites IH]; intros q l C2 RL.
    + cbn in RL. inversion RL; subst. constructor.
    + destruct q as [|x q]; [discriminate|]. cbn [combine map] in RL. inversion RL as [|aa [[z' q'] v'] l1 l2 H1 H2]; subst. cbn [map]. destruct s as [z v]. unfold bohr_site in H1. cbn [fst snd] in H1. constructor; [|apply (IH q); [now injection C2|exact H2]]. cbn [fst snd]. destruct H1 as (-> & _ & H1). split; [reflexivity|].
      destruct v as [[x0 y0] z0], v' as [[x1 y1] z1], oo as [[x2 y2] z2], o as [[x3 y3] z3]. cbn in *. destruct H1 as (A1 & A2 & A3), OO as (B1 & B2 & B3).
      assert (E2 : (2 * micro == micro + micro)%Q) by reflexivity. unfold near_by. rewrite E2. repeat split; apply near_by_sub; try assumption; now apply micro_one.
  - clear - RL C2. unfold atoms in RL. clear atoms. revert q l C2 RL. induction sites as [|s sites IH]; intros q l C2 RL.
    + destruct q; [|discriminate]. cbn in RL. inversion RL; subst. constructor.
    + destruct q as [|x q]; [discriminate|]. cbn [combine map] in RL. inversion RL as [|aa [[z' q'] v'] l1 l2 H1 H2]; subst. cbn [map]. destruct s as [z v]. unfold bohr_site in H1. cbn [fst snd] in H1. destruct H1 as (_ & H1 & _). constructor; [exact H1|apply IH; [now injection C2|exact H2]].
  - destruct o as [[x y] z], o' as [[x' y'] z']. cbn in *. destruct RO as (A & B & D). repeat split; now apply micro_one.
  - intros i j k J1 J2 J3. exists (nth (Z.to_nat (i + nx * (j + ny * k))) vals 0%Q). split; [|reflexivity].
    assert (N : (Z.to_nat (i + nx * (j + ny * k)) < Z.to_nat (nx * ny * nz))%nat).
    { assert (A : j + ny * k + 1 <= ny * nz) by nia. assert (0 <= ny * k) by nia. assert (0 <= nx * (j + ny * k)) by nia. apply Z2Nat.inj_lt; nia. }
    pose proof (Forall2_nth _ _ _ RV (Z.to_nat (i + nx * (j + ny * k))) (0 / W)%Q 0%Q) as H. rewrite map_length, LR in H. specialize (H N). rewrite (map_nth (fun x => x / W)%Q), (ravel_nth (Arr (nx, ny, nz) f) nx ny nz i j k 0%Q eq_refl J1 J2 J3) in H. exact H.
Qed.
