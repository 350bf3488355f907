(** Model of starks/test/Logistic_Regression.py: reading numbers as (v, p, z, s) tuples from a
    file, and the start of [Logistic_Regression].

    Python lists are objects: [output_list.append(temp_list)] stores a reference.  The model
    has a heap of list objects and [output_list] is a list of addresses.

    Simplifications: a string of '0', '1' and '-' is the list of its code points;
    [open(...).read().splitlines()] is an argument (the lines, or an exception), so are
    [float(line)], [num < 0], [num * -1] and the 64 bits that [struct.pack('d', .)] gives; the
    arithmetic after line 84 is left out, because no call reaches it (C120). *)
From Coq Require Import Bool ZArith List.
From Verif Require Import Base.
Import ListNotations.
Local Open Scope Z_scope.

Definition ch_0 : Z := 48.
Definition ch_1 : Z := 49.
Definition ch_plus : Z := 43.
Definition ch_minus : Z := 45.

(** the digits of [bin(x)] after ["0b"] for a positive x, most significant first *)
Fixpoint bin_pos (p : positive) (acc : list Z) : list Z :=
  match p with
  | xH => ch_1 :: acc
  | xO p' => bin_pos p' (ch_0 :: acc)
  | xI p' => bin_pos p' (ch_1 :: acc)
  end.

(** Logistic_Regression.py:9 [getBin].  [bin(0)] is ["0b0"], so [bin(0)[3:]] is empty;
    [bin(-5)] is ["-0b101"]. *)
Definition get_bin (x : Z) : list Z :=
  match x with
  | Zpos p => bin_pos p []
  | Z0 => [ch_minus]
  | Zneg p => ch_minus :: bin_pos p []
  end.

(** [s.zfill(w)]: zeros go behind a sign *)
Definition zfill (w : nat) (s : list Z) : list Z :=
  let pad := repeat ch_0 (w - length s) in
  match s with
  | c :: s' => if (c =? ch_plus) || (c =? ch_minus) then c :: pad ++ s' else pad ++ s
  | [] => pad
  end.

(** [int(c)] of one character *)
Definition int_of_char (c : Z) : result Z :=
  if (48 <=? c) && (c <=? 57) then Ok (c - 48) else Err ValueError.

(** [range(a, b, -1)] for a >= b >= 0 *)
Definition range_down (a b : nat) : list Z := map (fun k => Z.of_nat (a - k)) (seq 0 (a - b)).

(** List objects: the heap gives the contents at each address. *)
Definition heap := list (list Z).
Definition contents (h : heap) (r : nat) : list Z := nth r h [].
Definition append_to (h : heap) (r : nat) (x : Z) : heap := set_nth_list h r (contents h r ++ [x]).
Definition clear_at (h : heap) (r : nat) : heap := set_nth_list h r [].

(** Logistic_Regression.py:32-35, 39-42: one of the two loops over the characters.  The state
    is the heap and [z]. *)
Definition bit_loop (num_binary : list Z) (temp : nat) (js : list Z) (st : heap * Z) : result (heap * Z) :=
  foldM (fun '(h, z) j =>
    let* c := py_nth num_binary j in
    let z' := if c =? ch_1 then 0 else z in
    let* d := int_of_char c in
    Ok (append_to h temp d, z')) js st.

(** lines 36-37 and so on: [output_list.append(temp_list); temp_list.clear()] *)
Definition flush (temp : nat) (h : heap) (out : list nat) : heap * list nat :=
  (clear_at h temp, out ++ [temp]).

Section Read.
  Context {Line Flt : Type}.
  Variable parse : Line -> result Flt.     (* [float(line)] *)
  Variable negative : Flt -> bool.         (* [num < 0] *)
  Variable negate : Flt -> Flt.            (* [num * -1] *)
  (** [struct.unpack('Q', struct.pack('d', value))[0]]; the module never imports [struct]
      (lines 1-5), so as it stands this is [fun _ => Err NameError] *)
  Variable pack : Flt -> result Z.

  (** Logistic_Regression.py:11-13 *)
  Definition float_to_binary64 (value : Flt) : result (list Z) :=
    let* val := pack value in Ok (zfill 63 (get_bin val)).

  (** Logistic_Regression.py:22-51, the loop body *)
  Definition read_line (temp : nat) (st : heap * list nat) (line : Line) : result (heap * list nat) :=
    let '(h, out) := st in
    let* num := parse line in
    let '(s, num) := if negative num then (1, negate num) else (0, num) in
    let* num_binary := float_to_binary64 num in
    let* (h, z) := bit_loop num_binary temp (range_down 62 11) (h, 1) in
    let (h, out) := flush temp h out in
    let* (h, z) := bit_loop num_binary temp (range_down 10 0) (h, z) in
    let (h, out) := flush temp h out in
    let (h, out) := flush temp (append_to h temp z) out in
    Ok (flush temp (append_to h temp s) out).

  (** Logistic_Regression.py:16-53 [Read_from_File]: the heap and the references in
      [output_list].  [temp_list] is the only list object that is created, at address 0. *)
  Definition read_from_file (file : result (list Line)) : result (heap * list nat) :=
    let* f := file in foldM (read_line 0) f ([[]], []).

  (** The module as it stands *)
  Definition no_struct (value : Flt) : result Z := Err NameError.

  (** Logistic_Regression.py:55-84 [Logistic_Regression] up to the first use of the numbers;
      [setup] is lines 56-69 (building the field), [elem l] is [field(polysOver(l))] and
      [N] the constant of line 7.  The numbers are read in the order w, x, b, e. *)
  Context {E : Type}.
  Variable elem : list Z -> result E.

  (** [float_number(field(polysOver(l[i])), field(polysOver(l[i+1])), l[i+2][0], l[i+3][0])] *)
  Definition read_number (h : heap) (l : list nat) (i : Z) : result (E * E * Z * Z) :=
    let* a := py_nth l i in
    let* v := elem (contents h a) in
    let* b := py_nth l (i + 1) in
    let* p := elem (contents h b) in
    let* c := py_nth l (i + 2) in
    let* z := py_nth (contents h c) 0 in
    let* d := py_nth l (i + 3) in
    let* s := py_nth (contents h d) 0 in
    Ok (v, p, z, s).

  Definition logistic_inputs (N : nat) (setup : result unit) (file : result (list Line)) :=
    let* _ := setup in
    let* (h, l) := read_from_file file in
    let* w := mapM (fun i => read_number h l (4 * Z.of_nat i)) (seq 0 N) in
    let* x := mapM (fun i => read_number h l (4 * Z.of_nat N + 4 * Z.of_nat i)) (seq 0 N) in
    let* b := read_number h l (8 * Z.of_nat N) in
    let* e := read_number h l (8 * Z.of_nat N + 4) in
    Ok (w, x, b, e).
End Read.
