(** What the formatted numbers denote. *)
From Coq Require Import Ascii String QArith Qround Qabs Qpower Lqa Lia.
From Verif Require Import Base NearModel NearProofs TextModel TextProofs.
Local Open Scope Z_scope.

Lemma round_near x : (Qabs (inject_Z (py_round x) - x) <= 1 # 2)%Q.
Proof. destruct (py_round_spec x) as [[A B] _]. apply Qabs_Qle_condition. split; lra. Qed.
Lemma round_le x n : (x <= inject_Z n)%Q -> py_round x <= n.
Proof.
  intros H. destruct (py_round_spec x) as [[A B] EV]. apply Z.nlt_ge. intros L. assert (L' : (inject_Z (n + 1) <= inject_Z (py_round x))%Q) by (rewrite <- Zle_Qle; lia).
  rewrite inject_Z_plus in L'. change (inject_Z 1) with 1%Q in L'. lra.
Qed.
Lemma round_ge x n : (inject_Z n <= x)%Q -> n <= py_round x.
Proof.
  intros H. destruct (py_round_spec x) as [[A B] EV]. apply Z.nlt_ge. intros L. assert (L' : (inject_Z (py_round x + 1) <= inject_Z n)%Q) by (rewrite <- Zle_Qle; lia).
  rewrite inject_Z_plus in L'. change (inject_Z 1) with 1%Q in L'. lra.
Qed.
Lemma round_lt x n : (x < inject_Z n - (1 # 2))%Q -> py_round x < n.
Proof.
  intros H. destruct (py_round_spec x) as [[A B] EV]. apply Z.nle_gt. intros L. assert (L' : (inject_Z n <= inject_Z (py_round x))%Q) by (rewrite <- Zle_Qle; lia). lra.
Qed.
Lemma round_gt x n : (inject_Z n + (1 # 2) < x)%Q -> n < py_round x.
Proof.
  intros H. destruct (py_round_spec x) as [[A B] EV]. apply Z.nle_gt. intros L. assert (L' : (inject_Z (py_round x) <= inject_Z n)%Q) by (rewrite <- Zle_Qle; lia). lra.
Qed.

(** ** The Fortran format *)
(** [q] written with an exponent [e] such that [0.1 <= |q| / 10^e < 1]. *)
Definition scale (q : Q) (e : Z) : Prop := (pow10 (e - 1) <= Qabs q)%Q /\ (Qabs q < pow10 e)%Q.
Lemma scale_nz q e : scale q e -> ~ (q == 0)%Q.
Proof. intros [A _] E. rewrite E in A. pose proof (pow10_pos (e - 1)). change (Qabs 0) with 0%Q in A. lra. Qed.
Lemma scale_unique q e e' : scale q e -> scale q e' -> e = e'.
Proof. intros [A B] [C D]. assert (e - 1 = e' - 1); [|lia]. apply (pow10_unique (Qabs q)); auto; [replace (e - 1 + 1) with e by lia; exact B|replace (e' - 1 + 1) with e' by lia; exact D]. Qed.
Lemma scale_exp q : ~ (q == 0)%Q -> scale q (fortran_exp q).
Proof.
  intros N. unfold fortran_exp. destruct (Qeq_bool q 0) eqn:E; [apply Qeq_bool_iff in E; contradiction|]. destruct (floor_log_spec q N) as [A B]. split; [replace (floor_log q + 1 - 1) with (floor_log q) by lia; exact A|exact B].
Qed.
Lemma exp_scale q e : scale q e -> fortran_exp q = e.
Proof. intros S. eapply scale_unique; [apply scale_exp; eapply scale_nz; exact S|exact S]. Qed.
Definition e11 : Z := 100000000000.

Lemma scaled q e : scale q e -> let y := (q / pow10 e * inject_Z e11)%Q in (inject_Z 10000000000 <= Qabs y)%Q /\ (Qabs y < inject_Z e11)%Q.
Proof.
  intros [A B]. cbv zeta. pose proof (pow10_pos e) as P. assert (E : (Qabs (q / pow10 e * inject_Z e11) == Qabs q / pow10 e * inject_Z e11)%Q).
  { unfold Qdiv. rewrite !Qabs_Qmult. rewrite (Qabs_pos (/ pow10 e)) by (apply Qlt_le_weak, Qinv_lt_0_compat, P). reflexivity. }
  rewrite E. split.
  - apply Qle_trans with (pow10 (e - 1) / pow10 e * inject_Z e11)%Q.
    + rewrite pow10_sub. change (pow10 1) with 10%Q. apply Qle_lteq. right. unfold e11. change (inject_Z 10000000000) with 10000000000%Q. change (inject_Z 100000000000) with 100000000000%Q. field. apply pow10_ne.
    + apply Qmult_le_r; [reflexivity|]. apply Qmult_le_r; [apply Qinv_lt_0_compat, P|exact A].
  - assert (F : (Qabs q / pow10 e < 1)%Q) by (apply Qlt_shift_div_r; [exact P|lra]). apply Qlt_le_trans with (1 * inject_Z e11)%Q; [apply Qmult_lt_r; [reflexivity|exact F]|lra].
Qed.
Lemma mant_eq q e : scale q e -> fortran_mant q = py_round (q / pow10 e * inject_Z e11).
Proof. intros S. unfold fortran_mant. destruct (Qeq_bool q 0) eqn:E; [apply Qeq_bool_iff in E; exfalso; exact (scale_nz q e S E)|]. now rewrite (exp_scale q e S). Qed.
Lemma mant_range q e : scale q e -> 10000000000 <= Z.abs (fortran_mant q) <= e11.
Proof.
  intros S. rewrite (mant_eq q e S). destruct (scaled q e S) as [A B]. cbv zeta in *. set (y := (q / pow10 e * inject_Z e11)%Q) in *.
  revert A B. apply Qabs_case; intros Y A B.
  - pose proof (round_ge y 10000000000 A). pose proof (round_le y e11 (Qlt_le_weak _ _ B)). lia.
  - assert (A' : (y <= inject_Z (-10000000000))%Q) by (change (inject_Z (-10000000000)) with (-10000000000)%Q; change (inject_Z 10000000000) with 10000000000%Q in A; lra).
    assert (B' : (inject_Z (- e11) <= y)%Q) by (rewrite inject_Z_opp; lra).
    pose proof (round_le _ _ A'). pose proof (round_ge _ _ B'). lia.
Qed.
(** No carry into a twelfth digit. *)
Lemma mant_nocarry q e : scale q e -> (Qabs q * 200000000000 < 199999999999 * pow10 e)%Q -> Z.abs (fortran_mant q) < e11.
Proof.
  intros S C. rewrite (mant_eq q e S). pose proof (pow10_pos e) as P. assert (K : (Qabs (q / pow10 e * inject_Z e11) < 99999999999 + (1 # 2))%Q).
  { unfold Qdiv. rewrite !Qabs_Qmult. rewrite (Qabs_pos (/ pow10 e)) by (apply Qlt_le_weak, Qinv_lt_0_compat, P). change (Qabs (inject_Z e11)) with 100000000000%Q.
    assert (F : (Qabs q * / pow10 e < 199999999999 # 200000000000)%Q). { apply Qlt_shift_div_r; [exact P|]. lra. } lra. }
  set (y := (q / pow10 e * inject_Z e11)%Q) in *. revert K. apply Qabs_case; intros Y K.
  - pose proof (round_lt y e11). pose proof (round_ge y 0 Y). unfold e11 in *. change (inject_Z 100000000000) with 100000000000%Q in *. assert (py_round y < 100000000000) by (apply H; lra). lia.
  - pose proof (round_gt y (- e11)). pose proof (round_le y 0 Y). assert (- e11 < py_round y) by (apply H; rewrite inject_Z_opp; change (inject_Z e11) with 100000000000%Q; lra). lia.
Qed.
Lemma mant_near q e : scale q e -> (Qabs (inject_Z (fortran_mant q) * pow10 (e - 11) - q) <= (1 # 2) * pow10 (e - 11))%Q.
Proof.
  intros S. rewrite (mant_eq q e S). pose proof (round_near (q / pow10 e * inject_Z e11)) as R. set (m := inject_Z (py_round (q / pow10 e * inject_Z e11))) in *.
  assert (E : (m * pow10 (e - 11) - q == (m - q / pow10 e * inject_Z e11) * pow10 (e - 11))%Q).
  { rewrite pow10_sub. change (pow10 11) with (inject_Z e11). field. split; [discriminate|apply pow10_ne]. }
  rewrite E, Qabs_Qmult. rewrite (Qabs_pos (pow10 (e - 11))) by apply Qlt_le_weak, pow10_pos. apply Qmult_le_r; [apply pow10_pos|exact R].
Qed.

(** The field is a space and a body. *)
Definition body (m e : Z) : text := tl (format_fortran m e).
Lemma field_body m e : format_fortran m e = space :: body m e.
Proof. unfold body, format_fortran. destruct (m =? 0); [reflexivity|]. destruct (0 <=? m); reflexivity. Qed.
Lemma stops_E t : stops is_digit ("E"%char :: t).
Proof. reflexivity. Qed.
Definition no_space (t : text) : Prop := Forall (fun c => is_space c = false) t.
Lemma digits_no_space t : Forall isd t -> no_space t.
Proof. intros F. eapply Forall_impl; [|exact F]. apply isd_not_space. Qed.

Definition exp_text (neg : bool) (a : Z) : text := "E"%char :: (if neg then "-"%char else "+"%char) :: (if a <? 10 then ["0"%char] else []) ++ dec a.
Lemma exp_text_spec neg a r : 0 <= a -> stops is_digit r -> exponent (exp_text neg a ++ r) = (sgn_of neg * a, r).
Proof.
  intros A S. unfold exp_text. cbn [app].
  assert (E : number ((if a <? 10 then ["0"%char] else []) ++ dec a) = a) by (rewrite number_app, dec_number by exact A; destruct (a <? 10); reflexivity).
  rewrite (exponent_spec neg ((if a <? 10 then ["0"%char] else []) ++ dec a) r); [rewrite E; destruct neg; reflexivity| | |exact S].
  - apply Forall_app. split; [destruct (a <? 10); repeat constructor|now apply dec_digits].
  - intros C. apply app_eq_nil in C as [_ C]. now apply (dec_not_nil a).
Qed.
Lemma exp_text_length neg a : 0 <= a < 100 -> length (exp_text neg a) = 4%nat.
Proof.
  intros A. unfold exp_text. cbn [length]. rewrite app_length. destruct (a <? 10) eqn:E.
  - pose proof (dec_length_le a 1 ltac:(cbn; lia) ltac:(lia)). pose proof (dec_not_nil a ltac:(lia)). destruct (dec a); [congruence|]. cbn [length] in *. lia.
  - pose proof (dec_length a 1 ltac:(cbn; lia) ltac:(lia)). cbn [length]. lia.
Qed.
Lemma exp_text_no_space neg a : 0 <= a -> no_space (exp_text neg a).
Proof. intros A. constructor; [reflexivity|]. constructor; [destruct neg; reflexivity|]. apply Forall_app. split; [destruct (a <? 10); repeat constructor|apply digits_no_space, dec_digits, A]. Qed.

Lemma body_text m e : m <> 0 -> body m e = (if 0 <=? m then ["0"%char] else ["-"%char]) ++ "."%char :: dec (Z.abs m) ++ exp_text (e <? 0) (Z.abs e).
Proof.
  intros N. unfold body, format_fortran. replace (m =? 0) with false by lia. unfold exp_text. rewrite Z.leb_antisym. rewrite (Z.leb_antisym e 0). destruct (m <? 0), (e <? 0), (Z.abs e <? 10); reflexivity.
Qed.
Lemma body_parse m e r : 10000000000 <= Z.abs m < e11 -> stops is_digit r -> exists v, parse_float (body m e ++ r) = Some (v, r) /\ (v == inject_Z m * pow10 (e - 11))%Q.
Proof.
  intros M S. rewrite body_text by lia. rewrite <- app_assoc. cbn [app]. rewrite <- app_assoc. set (neg := m <? 0).
  assert (E : (if 0 <=? m then ["0"%char] else ["-"%char]) ++ "."%char :: dec (Z.abs m) ++ exp_text (e <? 0) (Z.abs e) ++ r
    = sgn_text neg ++ (if neg then [] else ["0"%char]) ++ "."%char :: dec (Z.abs m) ++ exp_text (e <? 0) (Z.abs e) ++ r) by (unfold neg; rewrite Z.leb_antisym; destruct (m <? 0); reflexivity).
  rewrite E. rewrite (parse_spec neg (if neg then [] else ["0"%char]) (dec (Z.abs m)) (exp_text (e <? 0) (Z.abs e)) r (sgn_of (e <? 0) * Z.abs e)); [| | | |reflexivity|apply exp_text_spec; [lia|exact S]].
  - eexists. split; [reflexivity|]. assert (L : Z.of_nat (length (dec (Z.abs m))) = 11) by (rewrite (dec_length (Z.abs m) 10); [reflexivity|unfold e11 in M; lia|lia]). rewrite L.
    assert (N : sgn_of neg * number ((if neg then [] else ["0"%char]) ++ dec (Z.abs m)) = m).
    { rewrite number_app, dec_number by lia. unfold neg, sgn_of. destruct (m <? 0) eqn:Q; [change (number []) with 0|change (number ["0"%char]) with 0]; rewrite Z.mul_0_l; lia. }
    rewrite N. replace (sgn_of (e <? 0) * Z.abs e) with e by (unfold sgn_of; destruct (e <? 0) eqn:Q; lia). reflexivity.
  - destruct neg; repeat constructor.
  - apply dec_digits. lia.
  - destruct neg; [|discriminate]. cbn. apply dec_not_nil. lia.
Qed.
Lemma body_parse0 e r : stops is_digit r -> exists v, parse_float (body 0 e ++ r) = Some (v, r) /\ (v == 0)%Q.
Proof.
  intros S. change (body 0 e) with (sgn_text false ++ ["0"%char] ++ "."%char :: lit "00000000000" ++ lit "E+00"). change ((sgn_text false ++ ["0"%char] ++ "."%char :: lit "00000000000" ++ lit "E+00") ++ r) with ("0"%char :: "."%char :: lit "00000000000" ++ lit "E+00" ++ r). change ("0"%char :: "."%char :: lit "00000000000" ++ lit "E+00" ++ r) with (sgn_text false ++ ["0"%char] ++ "."%char :: lit "00000000000" ++ lit "E+00" ++ r).
  rewrite (parse_spec false ["0"%char] (lit "00000000000") (lit "E+00") r 0); [|repeat constructor|repeat constructor|discriminate|reflexivity|].
  - eexists. split; [reflexivity|]. change (number (["0"%char] ++ lit "00000000000")) with 0. cbn [sgn_of]. change (inject_Z (1 * 0)) with 0%Q. ring.
  - change (exponent ("E"%char :: "+"%char :: lit "00" ++ r) = (0, r)). rewrite (exponent_spec false (lit "00") r); [reflexivity|repeat constructor|discriminate|exact S].
Qed.
Lemma body_word m e : 10000000000 <= Z.abs m < e11 \/ m = 0 -> word (body m e) /\ (Z.abs e < 100 -> length (body m e) = 17%nat).
Proof.
  intros [M| ->].
  - rewrite body_text by lia. split; [split|].
    + destruct (0 <=? m); discriminate.
    + apply Forall_app. split; [destruct (0 <=? m); repeat constructor|]. constructor; [reflexivity|]. apply Forall_app. split; [apply digits_no_space, dec_digits; lia|apply exp_text_no_space; lia].
    + intros E. rewrite app_length. cbn [length]. rewrite app_length, exp_text_length by lia. pose proof (dec_length (Z.abs m) 10 ltac:(unfold e11 in M; lia) ltac:(lia)). destruct (0 <=? m); cbn [length]; lia.
  - split; [split; [discriminate|repeat constructor]|reflexivity].
Qed.

(** ** The format [w.6f] *)
Definition fixed_body (q : Q) : text :=
  sgn_text (negb (Qle_bool 0 q)) ++ dec (fixed6 q / 1000000) ++ "."%char :: zeros 6 (dec (fixed6 q mod 1000000)).
Lemma fmt_f6_pad w q : fmt_f6 w q = repeat space (w - length (fixed_body q)) ++ fixed_body q.
Proof. unfold fmt_f6, pad_left, fixed_body. destruct (Qle_bool 0 q); reflexivity. Qed.
Lemma fixed6_nonneg q : 0 <= fixed6 q.
Proof. apply round_ge. change (inject_Z 0) with 0%Q. apply Qmult_le_0_compat; [apply Qabs_nonneg|discriminate]. Qed.
Lemma fixed_parse q r : stops is_digit r -> (match r with [] => True | c :: _ => c <> "E"%char /\ c <> "e"%char end) ->
  exists v, parse_float (fixed_body q ++ r) = Some (v, r) /\ (Qabs (v - q) <= 1 # 2000000)%Q /\ exists n, (v == inject_Z n / 1000000)%Q.
Proof.
  intros S E. pose proof (fixed6_nonneg q) as P. set (n := fixed6 q) in *. assert (M := Z.mod_pos_bound n 1000000 ltac:(lia)). assert (D := Z.div_mod n 1000000 ltac:(lia)).
  assert (D0 : 0 <= n / 1000000) by (apply Z.div_pos; lia). destruct (zeros_spec 6 (n mod 1000000) ltac:(cbn; lia) ltac:(lia)) as (Z1 & Z2 & Z3).
  set (neg := negb (Qle_bool 0 q)). replace (fixed_body q ++ r) with (sgn_text neg ++ dec (n / 1000000) ++ "."%char :: zeros 6 (dec (n mod 1000000)) ++ [] ++ r) by (unfold fixed_body; fold n neg; rewrite <- !app_assoc; reflexivity).
  rewrite (parse_spec neg (dec (n / 1000000)) (zeros 6 (dec (n mod 1000000))) [] r 0); [|now apply dec_digits|exact Z2|intros C; apply app_eq_nil in C as [C _]; now apply (dec_not_nil _ D0)|exact S|apply exponent_none; exact E].
  eexists. split; [reflexivity|]. rewrite Z3. rewrite number_app, Z1, Z3, dec_number by exact D0. change (10 ^ Z.of_nat 6) with 1000000. replace (n / 1000000 * 1000000 + n mod 1000000) with n by lia.
  change (pow10 (0 - Z.of_nat 6)) with (1 # 1000000)%Q. split.
  - assert (R := round_near (Qabs q * inject_Z 1000000)). fold (fixed6 q) in R. fold n in R. change (inject_Z 1000000) with 1000000%Q in R. apply Qabs_Qle_condition in R as [R1 R2]. apply Qabs_Qle_condition.
    unfold neg. destruct (Qle_bool 0 q) eqn:Q; cbn [negb sgn_of].
    + apply Qle_bool_iff in Q. rewrite (Qabs_pos q Q) in R1, R2. rewrite Z.mul_1_l. split; lra.
    + assert (Q' : (q <= 0)%Q) by (apply Qlt_le_weak, Qnot_le_lt; intros L; apply Qle_bool_iff in L; congruence). rewrite (Qabs_neg q Q') in R1, R2. replace (-1 * n) with (- n) by lia. rewrite inject_Z_opp. split; lra.
  - exists (sgn_of neg * n). field.
Qed.
Lemma fixed_word q : word (fixed_body q).
Proof.
  pose proof (fixed6_nonneg q) as P. assert (M := Z.mod_pos_bound (fixed6 q) 1000000 ltac:(lia)). destruct (zeros_spec 6 (fixed6 q mod 1000000) ltac:(cbn; lia) ltac:(lia)) as (Z1 & Z2 & Z3). split.
  - intros C. apply app_eq_nil in C as [_ C]. apply app_eq_nil in C as [_ C]. discriminate.
  - apply Forall_app. split; [destruct (negb _); repeat constructor|]. apply Forall_app. split; [apply digits_no_space, dec_digits, Z.div_pos; lia|]. constructor; [reflexivity|apply digits_no_space; exact Z2].
Qed.
(** The length for [|q| < 10 ^ k]. *)
Lemma fixed_length q k : 1 <= k -> (Qabs q * 2000000 < inject_Z (10 ^ k) * 2000000 - 1)%Q -> Z.of_nat (length (fixed_body q)) <= k + 8.
Proof.
  intros K B. pose proof (fixed6_nonneg q) as P. assert (M := Z.mod_pos_bound (fixed6 q) 1000000 ltac:(lia)). destruct (zeros_spec 6 (fixed6 q mod 1000000) ltac:(cbn; lia) ltac:(lia)) as (_ & _ & Z3).
  assert (L : fixed6 q < 10 ^ k * 1000000). { apply round_lt. rewrite inject_Z_mult. change (inject_Z 1000000) with 1000000%Q. lra. }
  assert (D : 0 <= fixed6 q / 1000000 < 10 ^ k) by (split; [apply Z.div_pos; lia|apply Z.div_lt_upper_bound; lia]). pose proof (dec_length_le _ k D K) as LL.
  unfold fixed_body. rewrite !app_length. cbn [length]. rewrite Z3. destruct (negb _); cbn [sgn_text length]; lia.
Qed.

(** ** The format [w.5E] *)
Definition sci_body (q : Q) : text :=
  let '(m, e) := sci5 q in sgn_text (negb (Qle_bool 0 q)) ++ digit (m / 100000) :: "."%char :: zeros 5 (dec (m mod 100000)) ++ fmt_exp e.
Lemma fmt_e5_pad w q : fmt_e5 w q = repeat space (w - length (sci_body q)) ++ sci_body q.
Proof. unfold fmt_e5, sci_body, pad_left. destruct (sci5 q) as [m e]. destruct (Qle_bool 0 q); reflexivity. Qed.
Lemma sci5_spec q : let '(m, e) := sci5 q in ((q == 0)%Q /\ m = 0 /\ e = 0) \/
  (100000 <= m < 1000000 /\ exists k, (pow10 k <= Qabs q)%Q /\ (Qabs q < pow10 (k + 1))%Q /\ k <= e <= k + 1 /\ (Qabs (inject_Z m * pow10 (e - 5) - Qabs q) <= (1 # 2) * pow10 (k - 5))%Q).
Proof.
  unfold sci5. destruct (Qeq_bool q 0) eqn:E; [left; apply Qeq_bool_iff in E; auto|]. assert (N : ~ (q == 0)%Q) by (intros C; apply Qeq_bool_iff in C; congruence). destruct (floor_log_spec q N) as [A B]. set (k := floor_log q) in *.
  pose proof (pow10_pos k) as P. set (y := (Qabs q / pow10 k * inject_Z 100000)%Q). assert (Y1 : (inject_Z 100000 <= y)%Q).
  { unfold y. assert ((1 <= Qabs q / pow10 k)%Q) by (apply Qle_shift_div_l; [exact P|lra]). change (inject_Z 100000) with 100000%Q. lra. }
  assert (Y2 : (y <= inject_Z 1000000)%Q).
  { unfold y. rewrite pow10_add in B. change (pow10 1) with 10%Q in B. assert ((Qabs q / pow10 k <= 10)%Q) by (apply Qle_shift_div_r; [exact P|lra]). change (inject_Z 100000) with 100000%Q. change (inject_Z 1000000) with 1000000%Q. lra. }
  apply round_ge in Y1. apply round_le in Y2. assert (R : (Qabs (inject_Z (py_round y) * pow10 (k - 5) - Qabs q) <= (1 # 2) * pow10 (k - 5))%Q).
  { assert (E' : (inject_Z (py_round y) * pow10 (k - 5) - Qabs q == (inject_Z (py_round y) - y) * pow10 (k - 5))%Q) by (unfold y; rewrite pow10_sub; change (pow10 5) with 100000%Q; change (inject_Z 100000) with 100000%Q; field; apply pow10_ne).
    rewrite E', Qabs_Qmult, (Qabs_pos (pow10 (k - 5))) by apply Qlt_le_weak, pow10_pos. apply Qmult_le_r; [apply pow10_pos|apply round_near]. }
  destruct (py_round y =? 1000000) eqn:C; right; (split; [lia|]); exists k; (split; [exact A|]); (split; [exact B|]); (split; [lia|]).
  - apply Z.eqb_eq in C. rewrite C in R. assert (E' : (inject_Z 100000 * pow10 (k + 1 - 5) == inject_Z 1000000 * pow10 (k - 5))%Q) by (replace (k + 1 - 5) with (k - 5 + 1) by lia; rewrite pow10_add; change (pow10 1) with 10%Q; change (inject_Z 100000) with 100000%Q; change (inject_Z 1000000) with 1000000%Q; ring). rewrite E'. exact R.
  - exact R.
Qed.
Lemma fmt_exp_spec e r : stops is_digit r -> exponent (fmt_exp e ++ r) = (e, r).
Proof.
  intros S. unfold fmt_exp. cbn [app]. pose proof (dec_digits (Z.abs e) ltac:(lia)) as D. pose proof (dec_not_nil (Z.abs e) ltac:(lia)) as N.
  assert (E : number (zeros 2 (dec (Z.abs e))) = Z.abs e) by (unfold zeros; rewrite number_app, number_zeros, dec_number by lia; lia).
  rewrite (exponent_spec (e <? 0) (zeros 2 (dec (Z.abs e))) r); [|unfold zeros; apply Forall_app; split; [apply Forall_forall; intros c I; apply repeat_spec in I; now subst|exact D]|unfold zeros; intros C; apply app_eq_nil in C as [_ C]; contradiction|exact S].
  rewrite E. f_equal. destruct (e <? 0) eqn:Q; lia.
Qed.
Lemma fmt_exp_no_space e : no_space (fmt_exp e).
Proof. constructor; [reflexivity|]. constructor; [destruct (e <? 0); reflexivity|]. apply Forall_app. split; [apply Forall_forall; intros c I; apply repeat_spec in I; now subst|apply digits_no_space, dec_digits; lia]. Qed.
(** [v] is the decimal number with six digits nearest to [q]. *)
Definition near6 (q v : Q) : Prop := ((q == 0)%Q /\ (v == 0)%Q) \/ exists k, (pow10 k <= Qabs q)%Q /\ (Qabs q < pow10 (k + 1))%Q /\ (Qabs (v - q) <= (1 # 2) * pow10 (k - 5))%Q /\ exists m e, Z.abs m < 1000000 /\ (v == inject_Z m * pow10 e)%Q.
Lemma sci_parse q r : stops is_digit r -> exists v, parse_float (sci_body q ++ r) = Some (v, r) /\ near6 q v.
Proof.
  intros S. unfold sci_body. pose proof (sci5_spec q) as SP. destruct (sci5 q) as [m e].
  assert (M : 0 <= m < 1000000) by (destruct SP as [(_ & -> & _)|[M _]]; lia). assert (MM := Z.mod_pos_bound m 100000 ltac:(lia)). assert (D := Z.div_mod m 100000 ltac:(lia)).
  assert (D0 : 0 <= m / 100000 <= 9) by lia. destruct (zeros_spec 5 (m mod 100000) ltac:(cbn; lia) ltac:(lia)) as (Z1 & Z2 & Z3). set (neg := negb (Qle_bool 0 q)).
  replace ((sgn_text neg ++ digit (m / 100000) :: "."%char :: zeros 5 (dec (m mod 100000)) ++ fmt_exp e) ++ r) with (sgn_text neg ++ [digit (m / 100000)] ++ "."%char :: zeros 5 (dec (m mod 100000)) ++ fmt_exp e ++ r) by (rewrite <- !app_assoc; cbn [app]; rewrite <- !app_assoc; reflexivity).
  rewrite (parse_spec neg [digit (m / 100000)] (zeros 5 (dec (m mod 100000))) (fmt_exp e) r e); [|constructor; [apply isd_digit; lia|constructor]|exact Z2|discriminate|reflexivity|apply fmt_exp_spec; exact S].
  eexists. split; [reflexivity|]. rewrite Z3, number_app, Z1, Z3, number_single, val_digit by lia. change (10 ^ Z.of_nat 5) with 100000. replace (m / 100000 * 100000 + m mod 100000) with m by lia. change (Z.of_nat 5) with 5.
  destruct SP as [(Q0 & -> & ->)|(MR & k & K1 & K2 & K3 & R)].
  - left. split; [exact Q0|]. rewrite Z.mul_0_r. change (inject_Z 0) with 0%Q. ring.
  - right. exists k. split; [exact K1|]. split; [exact K2|]. split; [|exists (sgn_of neg * m), (e - 5); split; [unfold sgn_of; destruct neg; lia|reflexivity]]. apply Qabs_Qle_condition in R as [R1 R2]. apply Qabs_Qle_condition. unfold neg. destruct (Qle_bool 0 q) eqn:Q; cbn [negb sgn_of].
    + apply Qle_bool_iff in Q. rewrite (Qabs_pos q Q) in R1, R2. rewrite Z.mul_1_l. split; lra.
    + assert (Q' : (q <= 0)%Q) by (apply Qlt_le_weak, Qnot_le_lt; intros L; apply Qle_bool_iff in L; congruence). rewrite (Qabs_neg q Q') in R1, R2. replace (-1 * m) with (- m) by lia. rewrite inject_Z_opp.
      assert (E : (- inject_Z m * pow10 (e - 5) == - (inject_Z m * pow10 (e - 5)))%Q) by ring. rewrite E. split; lra.
Qed.
Lemma sci_word q : word (sci_body q).
Proof.
  unfold sci_body. pose proof (sci5_spec q) as SP. destruct (sci5 q) as [m e]. assert (M : 0 <= m < 1000000) by (destruct SP as [(_ & -> & _)|[M _]]; lia).
  assert (MM := Z.mod_pos_bound m 100000 ltac:(lia)). assert (D := Z.div_mod m 100000 ltac:(lia)). destruct (zeros_spec 5 (m mod 100000) ltac:(cbn; lia) ltac:(lia)) as (_ & Z2 & _). split.
  - intros C. apply app_eq_nil in C as [_ C]. discriminate.
  - apply Forall_app. split; [destruct (negb _); repeat constructor|]. constructor; [apply isd_not_space, isd_digit; lia|]. constructor; [reflexivity|]. apply Forall_app. split; [apply digits_no_space; exact Z2|apply fmt_exp_no_space].
Qed.

(** ** Integers *)
Lemma int_of_str n : int_of (str_int n) = Some n.
Proof.
  unfold str_int, int_of. destruct (n <? 0) eqn:E.
  - cbn [sign]. pose proof (dec_digits (- n) ltac:(lia)) as D. pose proof (dec_not_nil (- n) ltac:(lia)) as N. replace (is_nil (dec (- n))) with false by (destruct (dec (- n)); [congruence|reflexivity]).
    replace (forallb is_digit (dec (- n))) with true by (symmetry; apply forallb_forall; rewrite Forall_forall in D; exact D). rewrite dec_number by lia. f_equal. lia.
  - pose proof (dec_digits n ltac:(lia)) as D. pose proof (dec_not_nil n ltac:(lia)) as N. rewrite <- (app_nil_r (dec n)), (sign_digits (dec n) [] D N), app_nil_r. replace (is_nil (dec n)) with false by (destruct (dec n); [congruence|reflexivity]).
    replace (forallb is_digit (dec n)) with true by (symmetry; apply forallb_forall; rewrite Forall_forall in D; exact D). rewrite dec_number by lia. f_equal. lia.
Qed.
Lemma str_int_word n : word (str_int n).
Proof.
  unfold str_int. destruct (n <? 0) eqn:E.
  - split; [discriminate|]. constructor; [reflexivity|]. apply digits_no_space, dec_digits. lia.
  - split; [apply dec_not_nil; lia|]. apply digits_no_space, dec_digits. lia.
Qed.
Lemma str_int_length n k : 0 <= n < 10 ^ k -> 1 <= k -> Z.of_nat (length (str_int n)) <= k.
Proof. intros H K. unfold str_int. replace (n <? 0) with false by lia. now apply dec_length_le. Qed.
