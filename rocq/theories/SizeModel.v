(** * SizeModel: human-readable sizes

    Models [parse_readable_size] (/repo/python/xoscar/utils.py 62-79) and the
    table [_memory_size_indices] (utils.py 59).

    Simplifications: text is ASCII; a float is the exact rational number it is
    read from, so rounding and overflow to infinity are not modelled (the
    multiplication by a power of 1024 is exact in binary floating point, the
    division by 100 is not). *)
From Coq Require Import List Bool Arith ZArith QArith Ascii String.
From Verif Require Import PyStr.
Import ListNotations.
Open Scope list_scope.
Open Scope char_scope.

Inductive parsed := Parsed (value : Q) (percent : bool) | ValueError.

Definition isdigit (c : ascii) : bool :=
  let n := nat_of_ascii c in ((48 <=? n) && (n <=? 57))%nat.

(** [value[num_pos] in "0123456789.-"], line 68 *)
Definition numchar (c : ascii) : bool := isdigit c || Ascii.eqb c "." || Ascii.eqb c "-".

(** Value of a sequence of decimal digits. *)
Definition dec (s : text) : Z :=
  fold_left (fun acc c => 10 * acc + (Z.of_nat (nat_of_ascii c) - 48))%Z s 0%Z.

(** [float(s)] on text made of the characters 0-9, [.] and [-] (all that reaches
    it here): an optional minus, digits, optionally a point and digits, with one
    digit at least. *)
Definition pyfloat_abs (s : text) : option Q :=
  let (ip, rest) := span isdigit s in
  match rest with
  | [] => match ip with [] => None | _ => Some (inject_Z (dec ip)) end
  | c :: fp =>
      if Ascii.eqb c "." && forallb isdigit fp && negb (match ip ++ fp with [] => true | _ => false end)
      then Some (Qmake (dec (ip ++ fp)) (Pos.pow 10 (Pos.of_nat (List.length fp)))
                 * (match fp with [] => 10 | _ => 1 end))%Q
      else None
  end.
Definition pyfloat (s : text) : option Q :=
  match s with
  | c :: s' => if Ascii.eqb c "-" then match pyfloat_abs s' with Some q => Some (- q)%Q | None => None end
               else pyfloat_abs s
  | [] => None
  end.

(** utils.py 59: the table, looked up with [suffix[:1]]; [None] is a KeyError *)
Definition memory_size_index (suffix : text) : option Z :=
  match suffix with
  | [] => Some 0%Z
  | c :: _ => if Ascii.eqb c "k" then Some 1%Z else if Ascii.eqb c "m" then Some 2%Z
              else if Ascii.eqb c "g" then Some 3%Z else if Ascii.eqb c "t" then Some 4%Z else None
  end.

(** utils.py 66-79, a text argument *)
Definition parse_readable_size (value : text) : parsed :=
  let value := lower (strip value) in
  let (num, suffix) := span numchar value in
  let suffix := strip suffix in
  if endswith1 "%" suffix then
    match pyfloat num with Some q => Parsed (q / 100) true | None => ValueError end
  else
    match pyfloat num, memory_size_index suffix with
    | Some q, Some i => Parsed (q * inject_Z (1024 ^ i)) false
    | _, _ => ValueError
    end.

(** utils.py 63-64, a number as argument *)
Definition parse_readable_number (q : Q) : parsed := Parsed q false.
