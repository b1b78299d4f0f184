(** Text, numbers in text, and the number formats used by core/utilities/file_parsers.py.

    A text is a list of characters.  [parse_float] is [strtod] without infinities, NaN and hexadecimal
    numbers; Python's [float] is [parse_float] of a whole word.  [fromstring] is [numpy.fromstring] with
    [sep=" "], which skips any amount of white space, also none, between numbers. *)
From Coq Require Import Ascii String QArith Qround Qabs.
From Verif Require Import Base NearModel.
Local Open Scope Z_scope.

Definition text := list ascii.
Definition lit (s : string) : text := list_ascii_of_string s.
Definition newline : ascii := "010"%char.
Definition space : ascii := " "%char.

Definition code (c : ascii) : Z := Z.of_nat (nat_of_ascii c).
Definition is_space (c : ascii) : bool := (code c =? 32) || ((9 <=? code c) && (code c <=? 13)).
Definition is_digit (c : ascii) : bool := (48 <=? code c) && (code c <=? 57).
Definition digit (d : Z) : ascii := ascii_of_nat (Z.to_nat (48 + d)).
Definition digit_val (c : ascii) : Z := code c - 48.

(** [str] of a non-negative integer. *)
Fixpoint dec_f (fuel : nat) (n : Z) : text :=
  match fuel with
  | O => [digit n]
  | S f => if n <? 10 then [digit n] else dec_f f (n / 10) ++ [digit (n mod 10)]
  end.
Definition dec (n : Z) : text := dec_f (Z.to_nat (Z.log2 n)) n.
Definition str_int (n : Z) : text := if n <? 0 then "-"%char :: dec (- n) else dec n.

Fixpoint span (p : ascii -> bool) (t : text) : text * text :=
  match t with
  | [] => ([], [])
  | c :: t' => if p c then let '(a, b) := span p t' in (c :: a, b) else ([], t)
  end.
Definition number (t : text) : Z := fold_left (fun v c => 10 * v + digit_val c) t 0.

Definition pow10 (e : Z) : Q := Qpower (inject_Z 10) e.

Definition sign (t : text) : Z * text :=
  match t with
  | "-"%char :: t' => (-1, t')
  | "+"%char :: t' => (1, t')
  | _ => (1, t)
  end.
Definition is_nil {A} (l : list A) : bool := match l with [] => true | _ => false end.
Definition exponent (t : text) : Z * text :=
  match t with
  | c :: t' =>
      if Ascii.eqb c "E" || Ascii.eqb c "e" then
        let '(s, t'') := sign t' in let '(d, r) := span is_digit t'' in
        if is_nil d then (0, t) else (s * number d, r)
      else (0, t)
  | [] => (0, t)
  end.
Definition fraction (t : text) : text * text :=
  match t with
  | c :: t' => if Ascii.eqb c "." then span is_digit t' else ([], t)
  | [] => ([], t)
  end.
Definition parse_float (t : text) : option (Q * text) :=
  let '(s, t) := sign t in
  let '(ip, t) := span is_digit t in
  let '(fp, t) := fraction t in
  if is_nil (ip ++ fp) then None
  else let '(e, t) := exponent t in
       Some (inject_Z (s * number (ip ++ fp)) * pow10 (e - Z.of_nat (List.length fp)), t)%Q.

(** Words. *)
Definition drop_space (t : text) : text := snd (span is_space t).
Fixpoint split_f (fuel : nat) (t : text) : list text :=
  match fuel with
  | O => []
  | S f =>
      match drop_space t with
      | [] => []
      | t' => let '(w, r) := span (fun c => negb (is_space c)) t' in w :: split_f f r
      end
  end.
Definition split (t : text) : list text := split_f (S (List.length t)) t.
Definition strip (t : text) : text := rev (drop_space (rev (drop_space t))).
Definition float_of (w : text) : option Q := match parse_float w with Some (q, []) => Some q | _ => None end.
Definition int_of (w : text) : option Z :=
  let '(s, d) := sign w in
  if is_nil d then None else if forallb is_digit d then Some (s * number d) else None.
Fixpoint map_opt {A B} (f : A -> option B) (l : list A) : option (list B) :=
  match l with
  | [] => Some []
  | a :: t => match f a, map_opt f t with Some b, Some r => Some (b :: r) | _, _ => None end
  end.
Definition floats_of (t : text) : option (list Q) := map_opt float_of (split t).
Definition ints_of (t : text) : option (list Z) := map_opt int_of (split t).

(** A line with its newline, and the rest. *)
Fixpoint readline (t : text) : text * text :=
  match t with
  | [] => ([], [])
  | c :: t' => if Ascii.eqb c newline then ([c], t') else let '(a, b) := readline t' in (c :: a, b)
  end.

(** At most [count] numbers; reading stops at the first text that is no number. *)
Fixpoint fromstring (count : nat) (t : text) : list Q :=
  match count with
  | O => []
  | S n => match parse_float (drop_space t) with Some (q, r) => q :: fromstring n r | None => [] end
  end.

(** ** Formats *)
Definition pad_left (w : nat) (t : text) : text := repeat space (w - List.length t) ++ t.
Definition pad_right (w : nat) (t : text) : text := t ++ repeat space (w - List.length t).
(** Digits of [n], at least [k]. *)
Definition zeros (k : nat) (t : text) : text := repeat "0"%char (k - List.length t) ++ t.
(** [f"{n:wd}"]. *)
Definition fmt_int (w : nat) (n : Z) : text := pad_left w (str_int n).
(** [f"{q:w.6f}"]: rounded half to even. *)
Definition fixed6 (q : Q) : Z := py_round (Qabs q * inject_Z 1000000).
Definition fmt_f6 (w : nat) (q : Q) : text :=
  let n := fixed6 q in
  pad_left w ((if Qle_bool 0 q then [] else ["-"%char]) ++ dec (n / 1000000) ++ "."%char :: zeros 6 (dec (n mod 1000000))).

(** [floor (log10 |q|)] for [q <> 0]. *)
Fixpoint ilog_f (fuel : nat) (n : Z) : Z :=
  match fuel with O => 0 | S f => if n <? 10 then 0 else 1 + ilog_f f (n / 10) end.
Definition ilog (n : Z) : Z := ilog_f (Z.to_nat (Z.log2 n)) n.
Definition floor_log (q : Q) : Z :=
  let e := ilog (Z.abs (Qnum q)) - ilog (Zpos (Qden q)) in
  if Qle_bool (pow10 e) (Qabs q) then e else e - 1.

(** [f"{q:13.5E}"]; Python rounds half to even and renormalises. *)
Definition fmt_exp (e : Z) : text := "E"%char :: (if e <? 0 then "-"%char else "+"%char) :: zeros 2 (dec (Z.abs e)).
Definition sci5 (q : Q) : Z * Z :=
  if Qeq_bool q 0 then (0, 0)
  else let e := floor_log q in
       let m := py_round (Qabs q / pow10 e * inject_Z 100000) in
       if m =? 1000000 then (100000, e + 1) else (m, e).
Definition fmt_e5 (w : nat) (q : Q) : text :=
  let '(m, e) := sci5 q in
  pad_left w ((if Qle_bool 0 q then [] else ["-"%char]) ++ digit (m / 100000) :: "."%char :: zeros 5 (dec (m mod 100000)) ++ fmt_exp e).

(** [format_fortran], lines 318-334. *)
Definition format_fortran (mant exp : Z) : text :=
  if mant =? 0 then lit " 0.00000000000E+00"
  else
    let abs_exp := Z.abs exp in
    let pre := if 0 <=? mant then lit " 0." else lit " -." in
    let pre_es := if 0 <=? exp then (if abs_exp <? 10 then lit "E+0" else lit "E+")
                  else (if abs_exp <? 10 then lit "E-0" else lit "E-") in
    pre ++ dec (Z.abs mant) ++ pre_es ++ dec abs_exp.

(** Lines 361-368: exponent and mantissa of one value. *)
Definition fortran_exp (q : Q) : Z := if Qeq_bool q 0 then 0 else floor_log q + 1.
Definition fortran_mant (q : Q) : Z := if Qeq_bool q 0 then 0 else py_round (q / pow10 (fortran_exp q) * inject_Z 100000000000).
