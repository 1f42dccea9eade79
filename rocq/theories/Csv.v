(** examples/data_io.cpp: reading and writing files of comma separated numbers.  A file is the list
    of its characters, numbers are IEEE binary64 (Flocq). *)
From Coq Require Import ZArith List Bool Ascii String Lia DecimalN.
From Flocq Require Import Core.Zaux IEEE754.BinarySingleNaN.
From Verif Require Import FloatTime.
Import ListNotations.
Local Open Scope Z_scope.

Definition str : Type := list ascii.
Definition lit (s : string) : str := list_ascii_of_string s.
Definition newline : ascii := ascii_of_nat 10.
Definition comma : ascii := ","%char.

(** ** std::getline and std::stod (C++ standard library, as used at data_io.cpp:19, 22, 28, 46) *)

(** std::getline(stream, s, d): the characters up to the next [d], which is removed; it fails when
    there is no character left *)
Fixpoint until (d : ascii) (s : str) : str * str :=
  match s with
  | [] => ([], [])
  | c :: s' => if Ascii.eqb c d then ([], s') else let r := until d s' in (c :: fst r, snd r)
  end.
Definition getline (d : ascii) (s : str) : option (str * str) :=
  match s with [] => None | _ => Some (until d s) end.
(** while (std::getline(stream, s, d)) out.push_back(s); every turn removes a character, so that the
    number of characters is enough fuel (lemma [getlines_fuel] in Props_Csv.v) *)
Fixpoint getlines (fuel : nat) (d : ascii) (s : str) : list str :=
  match fuel with
  | O => []
  | S f => match getline d s with None => [] | Some (l, r) => l :: getlines f d r end
  end.

(** a non-negative fraction a/b and a sign, rounded to the nearest double (ties to even); an
    infinity if it is too large *)
Definition div_to_f64 (s : bool) (a b : positive) : f64 :=
  SF2B _ (proj1 (Bdiv_correct_aux 53 1024 eq_refl eq_refl mode_NE s a 0 false b 0)).
(** (-1)^s m 10^e *)
Definition dec_to_f64 (s : bool) (m : Z) (e : Z) : f64 :=
  match m with
  | Zpos p => if e <? 0 then div_to_f64 s p (Z.to_pos (10 ^ (- e))) else div_to_f64 s (Z.to_pos (Zpos p * 10 ^ e)) 1
  | _ => B754_zero s
  end.
(** errno = ERANGE of strtod: too large, or smaller than every normal number and not exact (glibc) *)
Definition out_of_range (m e : Z) (x : f64) : bool :=
  match x with
  | B754_infinity _ => true
  | B754_zero _ => negb (m =? 0)
  | B754_finite _ mx ex _ =>
      (Zpos mx <? 2 ^ 52) && negb (if e <? 0 then m * 2 ^ (- ex) =? Zpos mx * 10 ^ (- e) else m * 10 ^ e * 2 ^ (- ex) =? Zpos mx)
  | B754_nan => false
  end.

Definition is_space (c : ascii) : bool := let n := nat_of_ascii c in (n =? 32)%nat || ((9 <=? n) && (n <=? 13))%nat.
Fixpoint skip_spaces (s : str) : str :=
  match s with c :: s' => if is_space c then skip_spaces s' else s | [] => [] end.
Definition digit (c : ascii) : option Z :=
  let n := Z.of_nat (nat_of_ascii c) - 48 in if (0 <=? n) && (n <=? 9) then Some n else None.
(** the longest prefix of digits: its value after [acc], the number of digits after [k], the rest *)
Fixpoint read_digits (acc k : Z) (s : str) : Z * Z * str :=
  match s with
  | c :: s' => match digit c with Some d => read_digits (10 * acc + d) (k + 1) s' | None => (acc, k, s) end
  | [] => (acc, k, [])
  end.
Definition read_sign (s : str) : bool * str :=
  match s with
  | c :: s' => if Ascii.eqb c "-" then (true, s') else if Ascii.eqb c "+" then (false, s') else (false, s)
  | [] => (false, [])
  end.
(** the optional exponent part *)
Definition read_exp (s : str) : Z :=
  match s with
  | c :: s' =>
      if Ascii.eqb c "e" || Ascii.eqb c "E" then
        let '(sg, r) := read_sign s' in
        let '(v, k, _) := read_digits 0 0 r in
        if k =? 0 then 0 else if sg then - v else v
      else 0
  | [] => 0
  end.
Definition lower (c : ascii) : ascii := let n := nat_of_ascii c in if ((65 <=? n) && (n <=? 90))%nat then ascii_of_nat (n + 32) else c.
Fixpoint starts (p s : str) : bool :=
  match p, s with
  | [], _ => true
  | c :: p', d :: s' => Ascii.eqb c (lower d) && starts p' s'
  | _, [] => false
  end.
(** std::stod: what it returns or which exception it throws *)
Inductive stod_result : Type := Num (x : f64) | InvalidArgument | OutOfRange.
(** std::stod in the "C" locale, characters after the number are ignored.  Simplified: hexadecimal
    numbers ("0x...") are not modelled (they are read as their leading 0) *)
Definition stod (s : str) : stod_result :=
  let '(sg, r) := read_sign (skip_spaces s) in
  if starts (lit "inf") r then Num (B754_infinity sg)
  else if starts (lit "nan") r then Num B754_nan
  else
    let '(a, ka, r1) := read_digits 0 0 r in
    let '(m, kf, r2) := match r1 with
                        | c :: r1' => if Ascii.eqb c "." then read_digits a 0 r1' else (a, 0, r1)
                        | [] => (a, 0, []) end in
    if ka + kf =? 0 then InvalidArgument
    else
      let e := read_exp r2 - kf in
      let x := dec_to_f64 sg m e in
      if out_of_range m e x then OutOfRange else Num x.

(** ** loadCsvFields, data_io.cpp:6-53 *)

(** how the call ends, with the data in the caller's vector at that point *)
Inductive load_result : Type :=
| Loaded (data : list (list f64))      (* returns true *)
| Refused (data : list (list f64))     (* returns false *)
| Threw (data : list (list f64)).      (* std::stod throws *)

(** :38-47, one row; [None]: a field does not exist *)
Inductive row_result : Type := Row (r : list f64) | NoField | RowThrew.
Fixpoint read_row (fields : list str) (idx : list nat) : row_result :=
  match idx with
  | [] => Row []
  | i :: idx' =>
      match nth_error fields i with
      | None => NoField
      | Some f =>
          match stod f with
          | Num x => match read_row fields idx' with Row r => Row (x :: r) | e => e end
          | _ => RowThrew
          end
      end
  end.
(** :22-50, the loop over the lines *)
Fixpoint load_lines (lines : list str) (idx : list nat) (data : list (list f64)) : load_result :=
  match lines with
  | [] => Loaded data
  | line :: rest =>
      match getlines (List.length line) comma line with
      | [] => Refused data
      | fields =>
          match read_row fields idx with
          | Row r => load_lines rest idx (data ++ [r])
          | NoField => Refused data
          | RowThrew => Threw data
          end
      end
  end.
(** :6-53; the file is [None] if it cannot be opened.  (The lines are taken from the file one by one;
    since nothing else reads the file, they are listed first here.) *)
Definition loadCsvFields (file : option str) (skip_header : bool) (idx : list nat) (data : list (list f64)) : load_result :=
  match file with
  | None => Refused data
  | Some s =>
      let s1 := if skip_header then match getline newline s with Some (_, r) => r | None => [] end else s in
      load_lines (getlines (List.length s1) newline s1) idx data
  end.

(** ** writeToFile, data_io.cpp:55-77 *)

Definition digit_char (n : Z) : ascii := ascii_of_nat (48 + Z.to_nat n).
Fixpoint uint_chars (d : Decimal.uint) : str :=
  match d with
  | Decimal.Nil => []
  | Decimal.D0 d => digit_char 0 :: uint_chars d
  | Decimal.D1 d => digit_char 1 :: uint_chars d
  | Decimal.D2 d => digit_char 2 :: uint_chars d
  | Decimal.D3 d => digit_char 3 :: uint_chars d
  | Decimal.D4 d => digit_char 4 :: uint_chars d
  | Decimal.D5 d => digit_char 5 :: uint_chars d
  | Decimal.D6 d => digit_char 6 :: uint_chars d
  | Decimal.D7 d => digit_char 7 :: uint_chars d
  | Decimal.D8 d => digit_char 8 :: uint_chars d
  | Decimal.D9 d => digit_char 9 :: uint_chars d
  end.
(** the decimal digits of n >= 0 *)
Definition int_chars (n : Z) : str := uint_chars (N.to_uint (Z.to_N n)).
(** the last six digits of n *)
Definition six_chars (n : Z) : str :=
  [digit_char (n / 100000 mod 10); digit_char (n / 10000 mod 10); digit_char (n / 1000 mod 10);
   digit_char (n / 100 mod 10); digit_char (n / 10 mod 10); digit_char (n mod 10)].
(** m 2^e in millionths, to the nearest integer, ties to even (printf rounds the exact value) *)
Definition millionths (m e : Z) : Z :=
  if e <? 0 then
    let d := 2 ^ (- e) in
    let q := m * 1000000 / d in
    match Z.compare (2 * (m * 1000000 mod d)) d with
    | Lt => q
    | Gt => q + 1
    | Eq => if Z.even q then q else q + 1
    end
  else m * 2 ^ e * 1000000.
Definition sign_chars (s : bool) : str := if s then lit "-" else [].
Definition fixed_chars (n : Z) : str := int_chars (n / 1000000) ++ lit "." ++ six_chars n.
(** std::to_string(double), i.e. printf "%f" (data_io.cpp:67).  The sign of a NaN is not modelled *)
Definition to_string (x : f64) : str :=
  match x with
  | B754_zero s => sign_chars s ++ fixed_chars 0
  | B754_infinity s => sign_chars s ++ lit "inf"
  | B754_nan => lit "nan"
  | B754_finite s m e _ => sign_chars s ++ fixed_chars (millionths (Zpos m) e)
  end.
(** data_io.cpp:66-71 *)
Fixpoint row_chars (r : list f64) : str :=
  match r with
  | [] => []
  | [x] => to_string x
  | x :: r' => to_string x ++ [comma] ++ row_chars r'
  end.
(** data_io.cpp:55-77: the content of the file afterwards.  Simplified: the file can be opened and the
    disk is not full (the function checks neither) *)
Definition writeToFile (header : str) (data : list (list f64)) : str :=
  (match header with [] => [] | _ => header ++ [newline] end) ++ List.concat (map (fun r => row_chars r ++ [newline]) data).

Definition fl64 (m e : Z) : f64 := binary_normalize 53 1024 eq_refl eq_refl mode_NE m e false.
