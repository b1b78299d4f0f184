(** Facts about numbers in text. *)
From Coq Require Import Ascii String QArith Qround Qabs Qpower Lqa Lia.
From Verif Require Import Base NearModel NearProofs TextModel.
Local Open Scope Z_scope.

(** ** Characters *)
Lemma code_digit d : 0 <= d <= 9 -> code (digit d) = 48 + d.
Proof. intros H. unfold code, digit. rewrite nat_ascii_embedding; lia. Qed.
Definition isd (c : ascii) : Prop := is_digit c = true.
Lemma isd_digit d : 0 <= d <= 9 -> isd (digit d).
Proof. intros H. unfold isd, is_digit. rewrite code_digit by lia. lia. Qed.
Lemma val_digit d : 0 <= d <= 9 -> digit_val (digit d) = d.
Proof. intros H. unfold digit_val. rewrite code_digit by lia. lia. Qed.
Lemma isd_val c : isd c -> 0 <= digit_val c <= 9.
Proof. unfold isd, is_digit, digit_val. lia. Qed.
Lemma isd_not_space c : isd c -> is_space c = false.
Proof. unfold isd, is_digit, is_space. lia. Qed.
Lemma isd_ne c x : isd c -> is_digit x = false -> c <> x.
Proof. unfold isd. intros H N ->. congruence. Qed.

Definition stops (p : ascii -> bool) (t : text) : Prop := match t with [] => True | c :: _ => p c = false end.
Lemma span_app p a r : Forall (fun c => p c = true) a -> stops p r -> span p (a ++ r) = (a, r).
Proof.
  induction 1 as [|c a C A IH]; intros S; cbn [app span].
  - destruct r as [|c r]; [reflexivity|]. cbn [span]. cbn in S. now rewrite S.
  - rewrite C. rewrite IH by exact S. reflexivity.
Qed.
Lemma span_spec p t : let '(a, b) := span p t in t = a ++ b /\ Forall (fun c => p c = true) a /\ stops p b.
Proof.
  induction t as [|c t IH]; cbn [span]; [repeat split; auto|]. destruct (p c) eqn:E.
  - destruct (span p t) as [a b]. destruct IH as (-> & F & S). repeat split; auto.
  - repeat split; auto.
Qed.

(** ** Digits *)
Lemma number_app a b : number (a ++ b) = number a * 10 ^ Z.of_nat (length b) + number b.
Proof.
  unfold number. rewrite fold_left_app. generalize (fold_left (fun v c => 10 * v + digit_val c) a 0). intros v. revert v.
  induction b as [|c b IH]; intros v; cbn [fold_left length]; [cbn; lia|]. rewrite IH. rewrite (IH (10 * 0 + digit_val c)). rewrite Nat2Z.inj_succ, Z.pow_succ_r by lia. ring.
Qed.
Lemma number_single c : number [c] = digit_val c.
Proof. unfold number. cbn. lia. Qed.
Lemma number_zeros k : number (repeat "0"%char k) = 0.
Proof. induction k as [|k IH]; [reflexivity|]. cbn [repeat]. change ("0"%char :: repeat "0"%char k) with (["0"%char] ++ repeat "0"%char k). rewrite number_app, IH. reflexivity. Qed.
Lemma number_nonneg t : Forall isd t -> 0 <= number t < 10 ^ Z.of_nat (length t).
Proof.
  induction t as [|c t IH] using rev_ind; intros F; [cbn; lia|]. apply Forall_app in F as [F C]. inversion C as [|? ? C' _]; subst. apply isd_val in C'. specialize (IH F).
  rewrite number_app, number_single, app_length. cbn [length]. rewrite Nat2Z.inj_add, Z.pow_add_r by lia. change (10 ^ Z.of_nat 1) with 10. lia.
Qed.

Lemma dec_f_spec f : forall n, 0 <= n < 10 ^ (Z.of_nat f + 1) ->
  number (dec_f f n) = n /\ Forall isd (dec_f f n) /\ dec_f f n <> [] /\ (forall k, 0 <= k -> 10 ^ k <= n < 10 ^ (k + 1) -> Z.of_nat (length (dec_f f n)) = k + 1) /\ (n < 10 -> length (dec_f f n) = 1%nat).
Proof.
  assert (ONE : forall n, 0 <= n < 10 -> number [digit n] = n /\ Forall isd [digit n] /\ [digit n] <> [] /\ (forall k, 0 <= k -> 10 ^ k <= n < 10 ^ (k + 1) -> Z.of_nat (length [digit n]) = k + 1) /\ (n < 10 -> length [digit n] = 1%nat)).
  { intros n H. split; [rewrite number_single; apply val_digit; lia|]. split; [constructor; [apply isd_digit; lia|constructor]|]. split; [discriminate|]. split; [|reflexivity].
    intros k K [L _]. destruct (Z.eq_dec k 0) as [->|N]; [reflexivity|]. exfalso. assert (10 ^ 1 <= 10 ^ k) by (apply Z.pow_le_mono_r; lia). change (10 ^ 1) with 10 in *. lia. }
  induction f as [|f IH]; intros n H; cbn [dec_f].
  - apply ONE. cbn in H. lia.
  - destruct (n <? 10) eqn:E; [apply ONE; lia|]. assert (M := Z.mod_pos_bound n 10 ltac:(lia)). assert (D := Z.div_mod n 10 ltac:(lia)).
    assert (B : 0 <= n / 10 < 10 ^ (Z.of_nat f + 1)).
    { rewrite Nat2Z.inj_succ in H. replace (Z.succ (Z.of_nat f) + 1) with (Z.succ (Z.of_nat f + 1)) in H by lia. rewrite Z.pow_succ_r in H by lia. lia. }
    destruct (IH _ B) as (N & F & NE & L & L1). split; [rewrite number_app, N, number_single, val_digit by lia; cbn; lia|]. split; [apply Forall_app; split; [exact F|constructor; [apply isd_digit; lia|constructor]]|].
    split; [intros C; apply app_eq_nil in C as [_ C]; discriminate|]. split; [|lia]. intros k K [A1 A2]. rewrite app_length. cbn [length].
    assert (K0 : 0 < k). { destruct (Z.eq_dec k 0) as [->|]; [|lia]. change (10 ^ (0 + 1)) with 10 in A2. lia. }
    assert (E1 : 10 ^ k = 10 * 10 ^ (k - 1)) by (rewrite <- Z.pow_succ_r by lia; f_equal; lia). assert (E2 : 10 ^ (k + 1) = 10 * 10 ^ (k - 1 + 1)) by (rewrite <- Z.pow_succ_r by lia; f_equal; lia).
    assert (P : Z.of_nat (length (dec_f f (n / 10))) = k - 1 + 1) by (apply L; lia). lia.
Qed.
Lemma log_fuel n : 0 <= n -> n < 10 ^ (Z.of_nat (Z.to_nat (Z.log2 n)) + 1).
Proof.
  intros H. rewrite Z2Nat.id by apply Z.log2_nonneg. destruct (Z.eq_dec n 0) as [->|N]; [reflexivity|]. destruct (Z.log2_spec n ltac:(lia)) as [_ L]. eapply Z.lt_le_trans; [exact L|].
  replace (Z.succ (Z.log2 n)) with (Z.log2 n + 1) by lia. apply Z.pow_le_mono_l. lia.
Qed.
Lemma dec_number n : 0 <= n -> number (dec n) = n.
Proof. intros H. apply dec_f_spec. split; [exact H|now apply log_fuel]. Qed.
Lemma dec_digits n : 0 <= n -> Forall isd (dec n).
Proof. intros H. apply dec_f_spec. split; [exact H|now apply log_fuel]. Qed.
Lemma dec_not_nil n : 0 <= n -> dec n <> [].
Proof. intros H. apply (dec_f_spec (Z.to_nat (Z.log2 n)) n). split; [exact H|now apply log_fuel]. Qed.
Lemma dec_length n k : 10 ^ k <= n < 10 ^ (k + 1) -> 0 <= k -> Z.of_nat (length (dec n)) = k + 1.
Proof. intros H K. assert (0 <= n) by (assert (0 < 10 ^ k) by (apply Z.pow_pos_nonneg; lia); lia). apply (dec_f_spec (Z.to_nat (Z.log2 n)) n); auto. split; [lia|now apply log_fuel]. Qed.
Lemma dec_length_le n k : 0 <= n < 10 ^ k -> 1 <= k -> Z.of_nat (length (dec n)) <= k.
Proof.
  intros [H L] K. destruct (Z_lt_dec n 10) as [S|S].
  - destruct (dec_f_spec (Z.to_nat (Z.log2 n)) n (conj H (log_fuel n H))) as (_ & _ & _ & _ & L1). unfold dec. rewrite L1 by exact S. lia.
  - assert (EX : forall m, 0 <= m -> n < 10 ^ (m + 1) -> exists j, 0 <= j <= m /\ 10 ^ j <= n < 10 ^ (j + 1)).
    { apply (natlike_ind (fun m => n < 10 ^ (m + 1) -> exists j, 0 <= j <= m /\ 10 ^ j <= n < 10 ^ (j + 1))).
      - cbn. lia.
      - intros m M IH B. destruct (Z_lt_dec n (10 ^ (m + 1))) as [Q|Q]; [destruct (IH Q) as (j & J & I); exists j; split; [lia|exact I]|]. exists (Z.succ m). split; [lia|]. replace (Z.succ m) with (m + 1) by lia. replace (Z.succ m + 1) with (m + 1 + 1) in B by lia. lia. }
    destruct (EX (k - 1)) as (j & J & I); [lia|replace (k - 1 + 1) with k by lia; exact L|]. rewrite (dec_length n j I) by lia. lia.
Qed.
Lemma zeros_spec k n : 0 <= n < 10 ^ Z.of_nat k -> (1 <= k)%nat -> number (zeros k (dec n)) = n /\ Forall isd (zeros k (dec n)) /\ length (zeros k (dec n)) = k.
Proof.
  intros H K. unfold zeros. assert (L := dec_length_le n (Z.of_nat k) H ltac:(lia)). split; [|split].
  - rewrite number_app, number_zeros, dec_number by lia. lia.
  - apply Forall_app. split; [|apply dec_digits; lia]. apply Forall_forall. intros c I. apply repeat_spec in I. subst. reflexivity.
  - rewrite app_length, repeat_length. lia.
Qed.

(** ** Powers of ten *)
Lemma pow10_pos e : (0 < pow10 e)%Q.
Proof. apply Qpower_0_lt. reflexivity. Qed.
Lemma pow10_ne e : ~ (pow10 e == 0)%Q.
Proof. pose proof (pow10_pos e) as P. intros E. rewrite E in P. discriminate. Qed.
Lemma pow10_add a b : (pow10 (a + b) == pow10 a * pow10 b)%Q.
Proof. apply Qpower_plus. discriminate. Qed.
Lemma pow10_opp a : (pow10 (- a) == / pow10 a)%Q.
Proof. apply Qpower_opp. Qed.
Lemma pow10_sub a b : (pow10 (a - b) == pow10 a / pow10 b)%Q.
Proof. unfold Z.sub. rewrite pow10_add, pow10_opp. reflexivity. Qed.
Lemma pow10_Z e : 0 <= e -> (pow10 e == inject_Z (10 ^ e))%Q.
Proof. intros H. unfold pow10. symmetry. apply Zpower_Qpower. exact H. Qed.
Lemma pow10_mono a b : a <= b -> (pow10 a <= pow10 b)%Q.
Proof. intros H. apply Qpower_le_compat_l; [exact H|discriminate]. Qed.
Lemma pow10_lt_inv a b : (pow10 a < pow10 b)%Q -> a < b.
Proof. intros H. apply Z.nle_gt. intros L. apply pow10_mono in L. apply (Qlt_not_le _ _ H L). Qed.
Lemma pow10_unique x a b : (pow10 a <= x)%Q -> (x < pow10 (a + 1))%Q -> (pow10 b <= x)%Q -> (x < pow10 (b + 1))%Q -> a = b.
Proof.
  intros A1 A2 B1 B2. assert (a < b + 1) by (apply pow10_lt_inv; eapply Qle_lt_trans; eassumption). assert (b < a + 1) by (apply pow10_lt_inv; eapply Qle_lt_trans; eassumption). lia.
Qed.

Lemma ilog_spec n : 0 < n -> 0 <= ilog n /\ 10 ^ ilog n <= n < 10 ^ (ilog n + 1).
Proof.
  intros P. assert (H : forall f n, 0 < n < 10 ^ (Z.of_nat f + 1) -> 0 <= ilog_f f n /\ 10 ^ ilog_f f n <= n < 10 ^ (ilog_f f n + 1)).
  { clear. induction f as [|f IH]; intros n H; cbn [ilog_f]; [cbn in *; lia|]. destruct (n <? 10) eqn:E; [cbn; lia|]. assert (M := Z.mod_pos_bound n 10 ltac:(lia)). assert (D := Z.div_mod n 10 ltac:(lia)).
    destruct (IH (n / 10)) as (I0 & I1 & I2).
    { rewrite Nat2Z.inj_succ in H. replace (Z.succ (Z.of_nat f) + 1) with (Z.succ (Z.of_nat f + 1)) in H by lia. rewrite Z.pow_succ_r in H by lia. lia. }
    split; [lia|]. replace (1 + ilog_f f (n / 10) + 1) with (Z.succ (ilog_f f (n / 10) + 1)) by lia. replace (1 + ilog_f f (n / 10)) with (Z.succ (ilog_f f (n / 10))) by lia. rewrite !Z.pow_succ_r by lia. lia. }
  apply H. split; [exact P|]. apply log_fuel. lia.
Qed.

Lemma floor_log_spec q : ~ (q == 0)%Q -> (pow10 (floor_log q) <= Qabs q)%Q /\ (Qabs q < pow10 (floor_log q + 1))%Q.
Proof.
  intros N. destruct q as [n d]. unfold floor_log. cbn [Qnum Qden]. assert (N' : 0 < Z.abs n) by (destruct n; [exfalso; apply N; reflexivity|lia|lia]).
  destruct (ilog_spec _ N') as (A0 & A1 & A2). destruct (ilog_spec (Zpos d) ltac:(lia)) as (B0 & B1 & B2). set (a := ilog (Z.abs n)) in *. set (b := ilog (Zpos d)) in *.
  rewrite Zle_Qle in A1. rewrite Zlt_Qlt in A2. rewrite Zle_Qle in B1. rewrite Zlt_Qlt in B2. rewrite <- pow10_Z in A1, A2, B1, B2 by lia.
  assert (E : (Qabs (n # d) == inject_Z (Z.abs n) / inject_Z (Zpos d))%Q) by (cbn [Qabs]; rewrite (Qmake_Qdiv (Z.abs n) d); reflexivity).
  assert (D : (0 < inject_Z (Zpos d))%Q) by reflexivity. pose proof (pow10_pos a) as PA. pose proof (pow10_pos b) as PB.
  rewrite pow10_add in A2, B2. change (pow10 1) with 10%Q in A2, B2.
  assert (UP : (Qabs (n # d) < pow10 (a - b + 1))%Q).
  { rewrite E. apply Qlt_shift_div_r; [exact D|]. rewrite pow10_add, pow10_sub. change (pow10 1) with 10%Q. eapply Qlt_le_trans; [exact A2|].
    apply Qle_trans with (pow10 a / pow10 b * 10 * pow10 b)%Q; [apply Qle_lteq; right; field; apply pow10_ne|]. apply Qmult_le_l; [|exact B1].
    apply Qmult_lt_0_compat; [|reflexivity]. apply Qlt_shift_div_l; [exact PB|]. lra. }
  assert (LO : (pow10 (a - b - 1) <= Qabs (n # d))%Q).
  { rewrite E. apply Qle_shift_div_l; [exact D|]. rewrite !pow10_sub. change (pow10 1) with 10%Q. eapply Qle_trans; [|exact A1].
    apply Qle_trans with (pow10 a / pow10 b / 10 * (pow10 b * 10))%Q; [|apply Qle_lteq; right; field; apply pow10_ne]. apply Qmult_le_l; [|apply Qlt_le_weak; exact B2].
    apply Qlt_shift_div_l; [reflexivity|]. assert ((0 < pow10 a / pow10 b)%Q) by (apply Qlt_shift_div_l; [exact PB|lra]). lra. }
  destruct (Qle_bool (pow10 (a - b)) (Qabs (n # d))) eqn:C.
  - apply Qle_bool_iff in C. split; [exact C|exact UP].
  - split; [exact LO|]. replace (a - b - 1 + 1) with (a - b) by lia. apply Qnot_le_lt. intros L. apply Qle_bool_iff in L. congruence.
Qed.

(** ** Parsing *)
Lemma sign_other c t : c <> "-"%char -> c <> "+"%char -> sign (c :: t) = (1, c :: t).
Proof. intros A B. unfold sign. destruct c as [[] [] [] [] [] [] [] []]; try reflexivity; exfalso; (apply A; reflexivity) || (apply B; reflexivity). Qed.
Lemma sign_digits d t : Forall isd d -> d <> [] -> sign (d ++ t) = (1, d ++ t).
Proof. intros F N. destruct d as [|c d]; [congruence|]. inversion F as [|? ? C _]; subst. apply sign_other; eapply isd_ne; eauto. Qed.
Lemma exponent_spec (neg : bool) d r : Forall isd d -> d <> [] -> stops is_digit r ->
  exponent ("E"%char :: (if neg then "-"%char else "+"%char) :: d ++ r) = ((if neg then -1 else 1) * number d, r).
Proof.
  intros F N S. unfold exponent. cbn [Ascii.eqb Bool.eqb orb]. assert (E : forall s : Z, (let '(d0, r0) := span is_digit (d ++ r) in if is_nil d0 then (0, "E"%char :: (if neg then "-"%char else "+"%char) :: d ++ r) else (s * number d0, r0)) = (s * number d, r)).
  { intros s. rewrite (span_app is_digit d r F S). destruct d; [congruence|reflexivity]. }
  destruct neg; cbn [sign]; apply E.
Qed.
Definition sgn_text (neg : bool) : text := if neg then ["-"%char] else [].
Definition sgn_of (neg : bool) : Z := if neg then -1 else 1.
Lemma parse_spec neg ip fp x r e :
  Forall isd ip -> Forall isd fp -> ip ++ fp <> [] -> stops is_digit (x ++ r) -> exponent (x ++ r) = (e, r) ->
  parse_float (sgn_text neg ++ ip ++ "."%char :: fp ++ x ++ r) = Some (inject_Z (sgn_of neg * number (ip ++ fp)) * pow10 (e - Z.of_nat (length fp)), r)%Q.
Proof.
  intros I F N S E. unfold parse_float. assert (SG : sign (sgn_text neg ++ ip ++ "."%char :: fp ++ x ++ r) = (sgn_of neg, ip ++ "."%char :: fp ++ x ++ r)).
  { destruct neg; [reflexivity|]. cbn [sgn_text app sgn_of]. destruct ip as [|c ip]; [reflexivity|]. inversion I as [|? ? C _]; subst. apply sign_other; eapply isd_ne; eauto. }
  rewrite SG. rewrite (span_app is_digit ip _ I) by reflexivity. cbn [fraction Ascii.eqb Bool.eqb]. rewrite (span_app is_digit fp (x ++ r) F S). rewrite E. destruct (ip ++ fp); [congruence|reflexivity].
Qed.
Lemma exponent_none r : match r with [] => True | c :: _ => c <> "E"%char /\ c <> "e"%char end -> exponent r = (0, r).
Proof.
  destruct r as [|c r]; [reflexivity|]. intros [A B]. unfold exponent. rewrite (proj2 (Ascii.eqb_neq c "E") A), (proj2 (Ascii.eqb_neq c "e") B). reflexivity.
Qed.

(** White space. *)
Lemma drop_space_app s t : Forall (fun c => is_space c = true) s -> stops is_space t -> drop_space (s ++ t) = t.
Proof. intros F S. unfold drop_space. now rewrite (span_app is_space s t F S). Qed.
Lemma spaces_ok k : Forall (fun c => is_space c = true) (repeat space k).
Proof. apply Forall_forall. intros c I. apply repeat_spec in I. now subst. Qed.

(** ** Words *)
Lemma split_f_fuel : forall f g t, (length t < f)%nat -> (length t < g)%nat -> split_f f t = split_f g t.
Proof.
  induction f as [|f IH]; intros g t F G; [lia|]. destruct g as [|g]; [lia|]. cbn [split_f]. unfold drop_space. pose proof (span_spec is_space t) as SP. destruct (span is_space t) as [s u]. destruct SP as (-> & _ & S). cbn [snd].
  destruct u as [|c u]; [reflexivity|]. pose proof (span_spec (fun c => negb (is_space c)) (c :: u)) as SQ. destruct (span (fun c => negb (is_space c)) (c :: u)) as [w r] eqn:E. destruct SQ as (E1 & _ & _).
  assert (W : w <> []). { intros ->. cbn [span] in E. cbn in S. rewrite S in E. cbn in E. destruct (span _ u); discriminate. }
  f_equal. rewrite app_length in F, G. rewrite E1, app_length in F, G. destruct w; [congruence|]. cbn [length] in *. apply IH; lia.
Qed.
Definition word (w : text) : Prop := w <> [] /\ Forall (fun c => is_space c = false) w.
Lemma split_word s w r : Forall (fun c => is_space c = true) s -> word w -> stops (fun c => negb (is_space c)) r -> split (s ++ w ++ r) = w :: split r.
Proof.
  intros S [N W] R. unfold split at 1. cbn [split_f]. rewrite drop_space_app; [|exact S|destruct w; [congruence|inversion W; assumption]].
  destruct (w ++ r) as [|c u] eqn:E; [destruct w; [congruence|discriminate]|]. rewrite <- E. rewrite (span_app (fun c => negb (is_space c)) w r); [|eapply Forall_impl; [|exact W]; cbn; intros a ->; reflexivity|exact R].
  f_equal. unfold split. apply split_f_fuel; [|lia]. rewrite !app_length. destruct w; [congruence|]. cbn [length]. lia.
Qed.
Lemma split_blank s : Forall (fun c => is_space c = true) s -> split s = [].
Proof. intros S. unfold split. cbn [split_f]. rewrite <- (app_nil_r s). rewrite drop_space_app; [reflexivity|exact S|exact I]. Qed.

Lemma readline_app l r : ~ In newline l -> readline (l ++ newline :: r) = (l ++ [newline], r).
Proof.
  induction l as [|c l IH]; intros N; cbn [app readline]; [reflexivity|]. destruct (Ascii.eqb c newline) eqn:E; [apply Ascii.eqb_eq in E; exfalso; apply N; left; exact E|]. rewrite IH; [reflexivity|]. intros I. apply N. right. exact I.
Qed.
Lemma readline_last l : ~ In newline l -> readline l = (l, []).
Proof.
  induction l as [|c l IH]; intros N; cbn [readline]; [reflexivity|]. destruct (Ascii.eqb c newline) eqn:E; [apply Ascii.eqb_eq in E; exfalso; apply N; left; exact E|]. rewrite IH; [reflexivity|]. intros I. apply N. right. exact I.
Qed.
