(** Model of the string based part of starks/multivariate_polynomial.py: [__repr__] (98-109),
    [__truediv__] (170-194), [size_p] (196-204), [StrToMulti] (206-274), [division]
    (280-298), [PolytoMulti] (300-306) and [CheckforDiv] (308-326), over an arbitrary field.

    A string is the list of its code points.  An index [i] into a string is represented by the
    suffix that starts there: [st[i]] raises IndexError when the suffix is empty, [st[i+1]]
    when it has fewer than two characters, [i += 3] is [drop 3].

    Simplifications: [isdigit] and [int] know the ASCII digits and white space only (no other digit occurs in
    the strings that the code builds); [x is not " "] is [x != " "], which is right for
    one-character strings in CPython; [str(div(Poly(a), Poly(b)))], computed by sympy, is a
    function argument; the [print] of line 289 is left out. *)
From Coq Require Import DecimalString.
From Coq.Strings Require Import Ascii String.
From Verif Require Import Prelude PowModel PolyModel MultiModel.
Set Implicit Arguments.
Unset Strict Implicit.
Unset Printing Implicit Defensive.
Import GRing.Theory.
Local Open Scope ring_scope.
Local Open Scope py_scope.

Definition str := seq nat.
(** the code points of an ASCII literal *)
Definition cp (s : String.string) : str := [seq nat_of_ascii c | c <- list_ascii_of_string s].

Definition c_space : nat := 32.
Definition c_star : nat := 42.
Definition c_plus : nat := 43.
Definition c_comma : nat := 44.
Definition c_minus : nat := 45.
Definition c_X : nat := 88.
Definition c_under : nat := 95.
Definition c_F : nat := 70.
Definition c_close : nat := 125.

(** [c.isdigit()] *)
Definition isdigit (c : nat) : bool := ((48 <= c) && (c <= 57))%N.

(** the number written by a list of digits *)
Definition digits_val (ds : str) : nat := foldl (fun n c => (10 * n + (c - 48))%N) 0%N ds.

(** [int(ds)] for a string of digits; [int("")] raises ValueError *)
Definition int_digits (ds : str) : result nat :=
  if ds is [::] then Err ValueError else Ok (digits_val ds).

(** [int(c)] for a single character *)
Definition int_char (c : nat) : result nat :=
  if isdigit c then Ok (c - 48)%N else Err ValueError.

(** digits with single underscores between them, as accepted by [int] *)
Fixpoint int_body (n : nat) (st : str) : result nat :=
  match st with
  | [::] => Ok n
  | c :: st' =>
    if isdigit c then int_body (10 * n + (c - 48))%N st'
    else if c == c_under then
      if st' is c' :: st'' then
        if isdigit c' then int_body (10 * n + (c' - 48))%N st'' else Err ValueError
      else Err ValueError
    else Err ValueError
  end.

Definition int_unsigned (st : str) : result nat :=
  if st is c :: st' then if isdigit c then int_body (c - 48)%N st' else Err ValueError
  else Err ValueError.

Definition is_white (c : nat) : bool := (c == 32)%N || ((9 <= c) && (c <= 13))%N.
Fixpoint lstrip (st : str) : str :=
  if st is c :: st' then if is_white c then lstrip st' else st else [::].
Definition strip (st : str) : str := rev (lstrip (rev (lstrip st))).

(** [int(st)] for a string *)
Definition py_int (st : str) : result Z :=
  match strip st with
  | c :: st' =>
    if c == c_minus then let* n := int_unsigned st' in Ok (- Z.of_nat n)%Z
    else if c == c_plus then let* n := int_unsigned st' in Ok (Z.of_nat n)
    else let* n := int_unsigned (c :: st') in Ok (Z.of_nat n)
  | [::] => Err ValueError
  end.

(** [str(n)] *)
Definition dec (n : nat) : str := cp (NilZero.string_of_uint (Nat.to_uint n)).

(** [sep.join(l)] *)
Fixpoint join (sep : str) (l : seq str) : str :=
  match l with
  | [::] => [::]
  | [:: x] => x
  | x :: l' => x ++ sep ++ join sep l'
  end.

(** starks/multivariate_polynomial.py:199-202, 211-213: the largest digit after an
    underscore.  Line 212 reads [st[i+1]] unguarded. *)
Fixpoint max_sym (st : str) (m : nat) : result nat :=
  match st with
  | [::] => Ok m
  | c :: st' =>
    if c == c_under then
      if st' is d :: _ then
        let* v := int_char d in max_sym st' (if (m < v)%N then v else m)
      else Err IndexError
    else max_sym st' m
  end.

(** starks/multivariate_polynomial.py:199-204, the loop of [size_p] *)
Fixpoint size_p_loop (st : str) (m : nat) : result nat :=
  match st with
  | [::] => Ok m
  | c :: st' =>
    if (c == c_X) && (2 < size st)%N && (nth 0%N st 1 == c_under) then
      let* v := int_char (nth 0%N st 2) in size_p_loop st' (if (m < v)%N then v else m)
    else size_p_loop st' m
  end.

(** starks/multivariate_polynomial.py:227-229, 253-255: [while st[i].isdigit()], which
    raises IndexError at the end of the string *)
Fixpoint digits_unsafe (st : str) : result (str * str) :=
  match st with
  | [::] => Err IndexError
  | c :: st' =>
    if isdigit c then let* (ds, r) := digits_unsafe st' in Ok (c :: ds, r) else Ok ([::], st)
  end.

(** starks/multivariate_polynomial.py:241-243: the guarded loop *)
Fixpoint digits_safe (st : str) : str * str :=
  match st with
  | [::] => ([::], [::])
  | c :: st' => if isdigit c then let '(ds, r) := digits_safe st' in (c :: ds, r) else ([::], st)
  end.

(** starks/multivariate_polynomial.py:236-239: skips ["X_"] or ["*X_"]; the tests read
    [st[i+1]] and [st[i+2]] *)
Definition skip_var (st : str) : result str :=
  match st with
  | [::] => Err IndexError
  | c :: st' =>
    if c == c_X then
      if st' is d :: _ then Ok (if d == c_under then drop 2 st else st) else Err IndexError
    else if c == c_star then
      match st' with
      | [::] => Err IndexError
      | d :: st'' =>
        if d == c_X then
          if st'' is e :: _ then Ok (if e == c_under then drop 3 st else st) else Err IndexError
        else Ok st
      end
    else Ok st
  end.

(** starks/multivariate_polynomial.py:246-261: the exponent *)
Definition read_pow (st : str) : result (nat * str) :=
  match st with
  | c :: d :: st' =>
    if (c == c_star) && (d == c_star) then
      let* (ds, r) := digits_unsafe st' in
      let* n := int_digits ds in Ok (n, r)
    else Ok (1%N, st)
  | _ => Ok (1%N, st)
  end.

(** [l[i-1] = v] for a non-negative [i]: index -1 is the last element *)
Definition set_index (l : key) (i v : nat) : result key :=
  if (i == 0)%N then
    if l is [::] then Err IndexError else Ok (set_nth 0%N l (size l).-1 v)
  else if (i <= size l)%N then Ok (set_nth 0%N l i.-1 v) else Err IndexError.

(** starks/multivariate_polynomial.py:235-266, the factors of a term.  Every iteration
    consumes a digit, so [fuel = size st] suffices. *)
Fixpoint factors (fuel : nat) (st : str) (tz : key) : result (key * str) :=
  match st with
  | [::] => Ok (tz, [::])
  | c :: _ =>
    if c == c_space then Ok (tz, st)
    else if fuel is fuel'.+1 then
      let* st1 := skip_var st in
      let '(ds, st2) := digits_safe st1 in
      let* index := int_digits ds in
      let* (pow, st3) := read_pow st2 in
      let* tz' := set_index tz index pow in
      factors fuel' st3 tz'
    else Err Diverges
  end.

Section Parser.
Variable F : fieldType.

(** [ring(0) + n] for an int *)
Definition ring_int (n : Z) : F :=
  if (n <? 0)%Z then - (Z.to_nat (- n))%:R else (Z.to_nat n)%:R.

(** starks/multivariate_polynomial.py:224-271, the loop over the terms *)
Fixpoint terms (fuel : nat) (st : str) (zero_t : key) (coeffs : mpoly F) : result (mpoly F) :=
  if st is [::] then Ok coeffs
  else if fuel is fuel'.+1 then
    let* (ds, st1) := digits_unsafe st in
    let temp_i := if ds is [::] then 1%N else digits_val ds in
    let* (tz, st2) := factors (size st1) st1 zero_t in
    terms fuel' (drop 3 st2) zero_t (dict_set coeffs tz (ring_int (Z.of_nat temp_i)))
  else Err Diverges.

(** starks/multivariate_polynomial.py:206-274 [StrToMulti] *)
Definition str_to_multi (st : str) (s : nat) : result (mpoly F) :=
  let* ms := max_sym st 0 in
  let zero_t := nseq (maxn s ms) 0%N in
  if ms == 0%N then
    let* n := py_int st in Ok (mmk [:: (zero_t, ring_int n)])
  else
    let* cs := terms (size st) st zero_t [::] in Ok (mmk cs).

(** starks/multivariate_polynomial.py:98-109 [__repr__] of a polynomial in [n] variables;
    [str_c] is [str] on coefficients *)
Definition power_tuple_to_string (k : key) : str :=
  flatten [seq cp "*X_" ++ dec ip.1.+1 ++ cp "**" ++ dec ip.2 | ip <- zip (iota 0 (size k)) k].

Definition mrepr (str_c : F -> str) (n : nat) (a : mpoly F) : str :=
  if mis_zero a then cp "0"
  else join (cp " + ")
    [seq if kc.1 != nseq n 0%N then str_c kc.2 ++ cp " " ++ power_tuple_to_string kc.1
         else str_c kc.2 | kc <- a].

(** starks/multivariate_polynomial.py:196-204 [size_p] *)
Definition size_p (str_c : F -> str) (n : nat) (a : mpoly F) : result nat :=
  size_p_loop (mrepr str_c n a) 0.

(** starks/multivariate_polynomial.py:186-191, 291-296: the text between position 6 and the
    first comma *)
Definition quotient_text (st : str) : str :=
  let r := drop 6 st in take (find (pred1 c_comma) r) r.

(** starks/multivariate_polynomial.py:170-194 [__truediv__]; [sdiv a b] is
    [str(div(Poly(a), Poly(b)))] *)
Definition mtruediv (sdiv : str -> str -> result str) (str_c : F -> str) (n : nat) (a b : mpoly F)
  : result (mpoly F) :=
  let* x_size := size_p str_c n a in
  let* y_size := size_p str_c n b in
  let* z := sdiv (mrepr str_c n a) (mrepr str_c n b) in
  str_to_multi (quotient_text z) (maxn x_size y_size).

(** starks/multivariate_polynomial.py:276-278 [div_remainder] *)
Definition mdiv_remainder (a y z : mpoly F) : mpoly F := msub a (mmul y z).

(** starks/multivariate_polynomial.py:308-326 [CheckforDiv] on the string of its argument.
    [poly.find("F_") == -1] says that ["F_"] does not occur. *)
Fixpoint has_F_ (st : str) : bool :=
  match st with
  | [::] => false
  | c :: st' => ((c == c_F) && (ohead st' == Some c_under)) || has_F_ st'
  end.

(** lines 320-321: skips to the next ["}"] and over it; IndexError at the end *)
Fixpoint skip_close (st : str) : result str :=
  match st with
  | [::] => Err IndexError
  | c :: st' => if c == c_close then Ok st' else skip_close st'
  end.

Fixpoint check_loop (fuel : nat) (st : str) : result str :=
  match st with
  | [::] => Ok [::]
  | c :: st' =>
    if fuel is fuel'.+1 then
      if (4 < size st)%N && (nth 0%N st 4 == c_F) then
        let* r := skip_close st in
        let* o := check_loop fuel' r in Ok (c :: o)
      else let* o := check_loop fuel' st' in Ok (c :: o)
    else Err Diverges
  end.

Definition check_for_div (st : str) : result str :=
  if has_F_ st then check_loop (size st) st else Ok st.

(** starks/multivariate_polynomial.py:280-298 [division]; [dstr] is the string of the
    divisor *)
Definition mdivision (sdiv : str -> str -> result str) (str_c : F -> str) (n : nat) (a : mpoly F)
  (dstr : str) : result (mpoly F) :=
  let* x := check_for_div (mrepr str_c n a) in
  let* x_size := size_p str_c n a in
  let* y := check_for_div dstr in
  let* z := sdiv x y in
  str_to_multi (quotient_text z) (maxn x_size 1).

(** starks/multivariate_polynomial.py:300-306 [PolytoMulti]; [pstr] is the string of the
    univariate polynomial *)
Definition poly_to_multi (str_c : F -> str) (n : nat) (a : mpoly F) (pstr : str) : result (mpoly F) :=
  let* size := size_p str_c n a in
  let* y := check_for_div pstr in
  str_to_multi y size.
End Parser.

(** starks/polynomial.py:63-70 [__repr__] of a univariate polynomial, given the strings of
    its coefficients *)
Definition prepr (cs : seq str) : str :=
  if cs is [::] then cp "0"
  else join (cp " + ")
    [seq if ia.1 == 0%N then ia.2 else ia.2 ++ cp " *x**" ++ dec ia.1 | ia <- zip (iota 0 (size cs)) cs].
