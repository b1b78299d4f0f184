(** Proofs about cube files. *)
From Coq Require Import Ascii String QArith Qround Qabs Lqa Lia.
From Verif Require Import Base GridModel GridProofs ChargeModel NearModel NearSpec NearProofs TextModel TextProofs FmtProofs GobjModel VaspModel VaspProofs VaspTop CubeModel.
Local Open Scope Z_scope.

(** ** Rounding to significant figures *)
Lemma py_round_int q z : (q == inject_Z z)%Q -> py_round q = z.
Proof.
  intros E. apply (nearest_even_fun q q _ _ (Qeq_refl q) (py_round_spec q)). split; [split; rewrite E; lra|]. intros [H|H]; rewrite E in H; exfalso; lra.
Qed.
Lemma round_sig_zero n q : (q == 0)%Q -> round_sig n q = 0%Q.
Proof. intros E. unfold round_sig. now rewrite (proj2 (Qeq_bool_iff q 0) E). Qed.
Lemma round_sig_nz n q : ~ (q == 0)%Q -> round_sig n q = (inject_Z (py_round (q * pow10 (n - 1 - floor_log q))) / pow10 (n - 1 - floor_log q))%Q.
Proof. intros E. unfold round_sig. destruct (Qeq_bool q 0) eqn:B; [apply Qeq_bool_iff in B; contradiction|reflexivity]. Qed.
Lemma round_sig_near n q k : (pow10 k <= Qabs q)%Q -> (Qabs q < pow10 (k + 1))%Q -> (Qabs (round_sig n q - q) <= (1 # 2) * pow10 (k + 1 - n))%Q /\ exists m, (round_sig n q == inject_Z m * pow10 (k + 1 - n))%Q.
Proof.
  intros A B. pose proof (pow10_pos k) as P. assert (N : ~ (q == 0)%Q) by (intros E; rewrite E in A; cbn in A; change (Qabs 0) with 0%Q in A; lra).
  destruct (floor_log_spec q N) as [C D]. assert (E : floor_log q = k) by (eapply pow10_unique; eassumption). rewrite round_sig_nz by exact N. rewrite E. set (e := n - 1 - k) in *. replace (k + 1 - n) with (- e) by lia. pose proof (pow10_pos e) as PE. set (z := py_round (q * pow10 e)). split.
  - assert (EQ : (inject_Z z / pow10 e - q == (inject_Z z - q * pow10 e) * pow10 (- e))%Q) by (rewrite pow10_opp; field; apply pow10_ne). rewrite EQ, Qabs_Qmult, (Qabs_pos (pow10 (- e))) by apply Qlt_le_weak, pow10_pos. apply Qmult_le_r; [apply pow10_pos|apply round_near].
  - exists z. rewrite pow10_opp. reflexivity.
Qed.
Lemma round_sig_exact n q m e : 1 <= n -> Z.abs m <= 10 ^ n -> (q == inject_Z m * pow10 e)%Q -> (round_sig n q == q)%Q.
Proof.
  intros N M E. destruct (Qeq_dec q 0) as [Z0|NZ]; [rewrite round_sig_zero by exact Z0; now rewrite Z0|]. destruct (floor_log_spec q NZ) as [A B]. rewrite round_sig_nz by exact NZ. set (k := floor_log q) in *. set (f := n - 1 - k).
  assert (AQ : (Qabs q == inject_Z (Z.abs m) * pow10 e)%Q). { rewrite E, Qabs_Qmult, (Qabs_pos (pow10 e)) by apply Qlt_le_weak, pow10_pos. reflexivity. }
  assert (INT : exists z, (q * pow10 f == inject_Z z)%Q).
  { destruct (Z.eq_dec (Z.abs m) (10 ^ n)) as [C|C].
    - assert (K : k = n + e).
      { assert (AQ' : (Qabs q == pow10 (n + e))%Q) by (rewrite AQ, C, pow10_add, (pow10_Z n) by lia; reflexivity). symmetry. apply (pow10_unique (Qabs q)); [rewrite AQ'; apply Qle_refl| |exact A|exact B]. rewrite AQ'. rewrite (pow10_add (n + e) 1). change (pow10 1) with 10%Q. pose proof (pow10_pos (n + e)). lra. }
      exists (Z.sgn m * 10 ^ (n - 1)). rewrite E. assert (MM : m = Z.sgn m * (10 ^ (n - 1) * 10)). { rewrite <- (Z.pow_succ_r 10 (n - 1)) || idtac. replace (10 ^ (n - 1) * 10) with (10 ^ n) by (replace n with (n - 1 + 1) at 1 by lia; rewrite Z.pow_add_r by lia; reflexivity). rewrite <- C. symmetry. rewrite Z.mul_comm. apply Z.abs_sgn. }
      assert (EE : (pow10 e * pow10 f == 1 # 10)%Q) by (rewrite <- pow10_add; unfold f; rewrite K; replace (e + (n - 1 - (n + e))) with (-1) by lia; reflexivity).
      rewrite <- Qmult_assoc, EE. rewrite MM at 1. rewrite !inject_Z_mult. change (inject_Z 10) with 10%Q. ring.
    - assert (L : k < n + e).
      { apply pow10_lt_inv. eapply Qle_lt_trans; [exact A|]. rewrite AQ, pow10_add, (pow10_Z n) by lia. apply Qmult_lt_r; [apply pow10_pos|]. rewrite <- Zlt_Qlt. lia. }
      exists (m * 10 ^ (e + f)). rewrite E, <- Qmult_assoc, <- pow10_add, (pow10_Z (e + f)) by (unfold f; lia). now rewrite inject_Z_mult. }
  destruct INT as (z & I). rewrite (py_round_int _ z I). rewrite <- I. field. apply pow10_ne.
Qed.

(** ** The guess of the number of figures *)
Lemma max_diff_spec n l : let d := fun v => Qabs (round_sig n v - v) in (forall v, In v l -> (d v <= max_diff n l)%Q) /\ ((max_diff n l == 0)%Q \/ exists v, In v l /\ max_diff n l = d v).
Proof.
  cbv zeta. unfold max_diff. cut (forall a, (forall v, In v l -> (Qabs (round_sig n v - v) <= fold_left (fun m v => let d := Qabs (round_sig n v - v) in if Qltb m d then d else m) l a)%Q) /\ (a <= fold_left (fun m v => let d := Qabs (round_sig n v - v) in if Qltb m d then d else m) l a)%Q /\
    (fold_left (fun m v => let d := Qabs (round_sig n v - v) in if Qltb m d then d else m) l a = a \/ exists v, In v l /\ fold_left (fun m v => let d := Qabs (round_sig n v - v) in if Qltb m d then d else m) l a = Qabs (round_sig n v - v))).
  { intros H. destruct (H 0%Q) as (A & _ & [B|B]); (split; [exact A|]); [left; cbv zeta in B; rewrite B; reflexivity|right; exact B]. }
  induction l as [|x l IH]; intros a; [split; [intros v []|]; split; [apply Qle_refl|left; reflexivity]|]. cbn [fold_left]. cbv zeta. destruct (IH (if Qltb a (Qabs (round_sig n x - x)) then Qabs (round_sig n x - x) else a)) as (A & B & C). destruct (Qltb_spec a (Qabs (round_sig n x - x))) as [L|L].
  - split; [|split].
    + intros v [<-|I]; [exact B|now apply A].
    + eapply Qle_trans; [apply Qlt_le_weak; exact L|exact B].
    + right. destruct C as [C|(v & I & C)]; [exists x; split; [now left|exact C]|exists v; split; [now right|exact C]].
  - split; [|split].
    + intros v [<-|I]; [eapply Qle_trans; [|exact B]; lra|now apply A].
    + exact B.
    + destruct C as [C|(v & I & C)]; [left; exact C|right; exists v; split; [now right|exact C]].
Qed.
Definition close_all (n : Z) (l : list Q) : Prop := forall v, In v l -> (Qabs (round_sig n v - v) < pow10 (-15))%Q.
Lemma max_diff_close n l : Qltb (max_diff n l) (pow10 (-15)) = true <-> close_all n l.
Proof.
  destruct (max_diff_spec n l) as [A B]. split.
  - intros H v I. destruct (Qltb_spec (max_diff n l) (pow10 (-15))) as [L|L]; [|discriminate]. eapply Qle_lt_trans; [apply A, I|exact L].
  - intros C. destruct (Qltb_spec (max_diff n l) (pow10 (-15))) as [L|L]; [reflexivity|]. exfalso. destruct B as [B|(v & I & B)]; [rewrite B in L; pose proof (pow10_pos (-15)); lra|]. rewrite B in L. apply C in I. lra.
Qed.
Lemma guess_correct l : forall f n, let r := guess f n l in (forall k, n <= k < r -> ~ close_all k l) /\ (n <= r < n + Z.of_nat f /\ close_all r l \/ (r = n + Z.of_nat f - 1 /\ (forall k, n <= k <= r -> ~ close_all k l))).
Proof.
  induction f as [|f IH]; intros n; cbv zeta.
  - cbn [guess]. split; [intros; lia|]. right. split; [lia|]. intros; lia.
  - cbn [guess]. destruct (Qltb (max_diff n l) (pow10 (-15))) eqn:E.
    + apply max_diff_close in E. split; [intros; lia|]. left. split; [lia|exact E].
    + assert (NC : ~ close_all n l) by (intros C; apply max_diff_close in C; congruence). specialize (IH (n + 1)). cbv zeta in IH. destruct IH as [A B]. split.
      * intros k K. destruct (Z.eq_dec k n) as [-> |]; [exact NC|apply A; lia].
      * destruct B as [[B C]|[B C]]; [left; split; [lia|exact C]|right; split; [lia|]]. intros k K. destruct (Z.eq_dec k n) as [-> |]; [exact NC|apply C; lia].
Qed.

(** ** The data *)
Definition efields (l : list Q) : text := List.concat (map (fmt_e5 13) l).
Definition wide (q : Q) : Prop := (q == 0)%Q \/ (pow10 (-999) <= Qabs q)%Q /\ (Qabs q < pow10 999)%Q.
Lemma fmt_exp_length e : Z.abs e < 1000 -> (length (fmt_exp e) <= 5)%nat.
Proof. intros E. pose proof (dec_length_le (Z.abs e) 3 ltac:(cbn; lia) ltac:(lia)). unfold fmt_exp, zeros. cbn [length]. rewrite app_length, repeat_length. lia. Qed.
Lemma sci_starts q r : wide q -> stops is_digit (fmt_e5 13 q ++ r).
Proof.
  intros W. rewrite fmt_e5_pad. unfold sci_body. pose proof (sci5_spec q) as SP. destruct (sci5 q) as [m e].
  assert (E : Z.abs e < 1000).
  { destruct SP as [(_ & _ & ->)|(_ & k & K1 & K2 & K3 & _)]; [lia|]. destruct W as [W|[W1 W2]]; [exfalso; rewrite W in K1; change (Qabs 0) with 0%Q in K1; pose proof (pow10_pos k); lra|].
    assert (k < 999) by (apply pow10_lt_inv; lra). assert (-999 < k + 1) by (apply pow10_lt_inv; lra). lia. }
  assert (MM := Z.mod_pos_bound m 100000 ltac:(lia)). destruct (zeros_spec 5 (m mod 100000) ltac:(cbn; lia) ltac:(lia)) as (_ & _ & Z3).
  destruct (Qle_bool 0 q); cbn [negb sgn_text app].
  - cbn [length]. rewrite app_length, Z3. pose proof (fmt_exp_length e E). destruct (13 - S (S (5 + length (fmt_exp e))))%nat eqn:L; [lia|]. reflexivity.
  - destruct (13 - _)%nat; reflexivity.
Qed.
Lemma repeat_drop n k t : fromstring n (repeat space k ++ t) = fromstring n t.
Proof. induction k as [|k IH]; [reflexivity|]. cbn [repeat app]. rewrite fromstring_space by reflexivity. exact IH. Qed.
Lemma from_efields n r : stops is_digit r -> forall l, Forall wide l -> exists vs, fromstring (length l + n) (efields l ++ r) = vs ++ fromstring n r /\ Forall2 near6 l vs.
Proof.
  intros S. induction l as [|q l IH]; intros F; [exists []; split; [reflexivity|constructor]|]. inversion F as [|? ? W F']; subst. destruct (IH F') as (vs & E & V). unfold efields. cbn [map List.concat]. fold (efields l).
  assert (ST : stops is_digit (efields l ++ r)). { destruct l as [|q' l]; [exact S|]. inversion F' as [|? ? W' _]; subst. unfold efields. cbn [map List.concat]. rewrite <- app_assoc. now apply sci_starts. }
  rewrite fmt_e5_pad, <- !app_assoc. cbn [length Nat.add]. rewrite repeat_drop. cbn [fromstring]. rewrite drop_word_app by apply sci_word. destruct (sci_parse q (efields l ++ r) ST) as (v & P & NR). rewrite P. exists (v :: vs). split; [cbn [app]; now rewrite <- E|constructor; assumption].
Qed.
Lemma from_lines n r : forall ls, Forall wide (List.concat ls) -> exists vs, fromstring (length (List.concat ls) + n) (List.concat (map (fun l => nl (efields l)) ls) ++ r) = vs ++ fromstring n r /\ Forall2 near6 (List.concat ls) vs.
Proof.
  induction ls as [|l ls IH]; intros F; [exists []; split; [reflexivity|constructor]|]. cbn [List.concat map] in *. apply Forall_app in F as [F1 F2]. destruct (IH F2) as (vs & E & V). unfold nl at 1. rewrite <- !app_assoc. cbn [app]. rewrite app_length, <- Nat.add_assoc.
  destruct (from_efields (length (List.concat ls) + n) (newline :: List.concat (map (fun l => nl (efields l)) ls) ++ r) eq_refl l F1) as (v1 & E1 & V1). exists (v1 ++ vs). rewrite E1. rewrite fromstring_space by reflexivity. rewrite E, app_assoc. split; [reflexivity|now apply Forall2_app].
Qed.
Lemma concat_chunks {A} n : (1 <= n)%nat -> forall f (l : list A), (length l <= f)%nat -> List.concat (chunks n l) = l.
Proof.
  intros N. induction f as [|f IH]; intros l L; [destruct l; [reflexivity|cbn in L; lia]|]. destruct l as [|x t] eqn:E; [reflexivity|]. rewrite <- E in *. assert (NE : l <> []) by congruence. rewrite (chunks_step n l N NE). cbn [List.concat]. rewrite IH; [apply firstn_skipn|]. rewrite skipn_length. assert (1 <= length l)%nat by (rewrite E; cbn; lia). lia.
Qed.
Lemma cube_row_lines l : cube_row l = List.concat (map (fun c => nl (efields c)) (chunks 6 l)).
Proof.
  unfold cube_row. destruct l as [|x t] eqn:E; [reflexivity|]. rewrite <- E. assert (NE : l <> []) by congruence. rewrite join_nl; [|rewrite (chunks_step 6 l ltac:(lia) NE); discriminate]. rewrite map_map. reflexivity.
Qed.
Lemma from_data nx ny nz l : 1 <= nz -> Forall wide l -> exists vs, fromstring (length l) (cube_data (nx, ny, nz) l) = vs /\ Forall2 near6 l vs.
Proof.
  intros N F. set (ls := List.concat (map (chunks 6) (chunks (Z.to_nat nz) l))).
  assert (E : cube_data (nx, ny, nz) l = List.concat (map (fun c => nl (efields c)) ls)).
  { unfold cube_data, ls. rewrite concat_map, map_map, <- flat_map_concat_map, <- flat_map_concat_map. induction (chunks (Z.to_nat nz) l) as [|c cs IH]; [reflexivity|]. cbn [flat_map]. rewrite concat_app, IH, cube_row_lines. reflexivity. }
  assert (EL : List.concat ls = l).
  { unfold ls. clear E. transitivity (List.concat (chunks (Z.to_nat nz) l)); [|apply (concat_chunks (Z.to_nat nz) ltac:(lia) (length l)); lia]. clear ls. induction (chunks (Z.to_nat nz) l) as [|c cs IH]; [reflexivity|]. cbn [map List.concat]. rewrite concat_app, IH. f_equal. apply (concat_chunks 6 ltac:(lia) (length c)). lia. }
  rewrite <- EL in F. destruct (from_lines 0 [] ls F) as (vs & A & B). rewrite EL, Nat.add_0_r, app_nil_r in A. cbn [fromstring] in A. rewrite app_nil_r in A. exists vs. rewrite E. rewrite EL in B. auto.
Qed.
