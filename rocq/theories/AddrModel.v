(** * AddrModel: wildcard addresses

    Models [is_v4_zero_ip], [is_v6_zero_ip], [is_zero_ip], [is_v6_ip] and
    [fix_all_zero_ip] (/repo/python/xoscar/utils.py 478-521), and the use that
    [actor_ref] makes of it (/repo/python/xoscar/backends/context.py 209-228).
    Addresses are ASCII text.  [None] stands for a raised ValueError. *)
From Coq Require Import List Bool Arith ZArith Ascii String.
From Verif Require Import PyStr.
Import ListNotations.
Open Scope list_scope.
Open Scope char_scope.

(** [l[-1]] of a list that is not empty. *)
Definition last_of (l : list text) : text := last l [].

(** Value of one hexadecimal digit. *)
Definition hexval (c : ascii) : option Z :=
  let n := Z.of_nat (nat_of_ascii c) in
  (if (48 <=? n)%Z && (n <=? 57)%Z then Some (n - 48)%Z
   else if (97 <=? n)%Z && (n <=? 102)%Z then Some (n - 87)%Z
   else if (65 <=? n)%Z && (n <=? 70)%Z then Some (n - 55)%Z
   else None).

(** The digits of [int(s, 16)]: single underscores are allowed between digits.
    [us] is true when a digit has to follow. *)
Fixpoint int16_digits (acc : Z) (us : bool) (s : text) : option Z :=
  match s with
  | [] => if us then None else Some acc
  | c :: s =>
      if Ascii.eqb c "_" then (if us then None else int16_digits acc true s)
      else match hexval c with
           | Some d => int16_digits (16 * acc + d)%Z false s
           | None => None
           end
  end.

(** [int(s, 16)]: spaces around, a sign, a prefix 0x, digits. *)
Definition int16_unsigned (s : text) : option Z :=
  match s with
  | "0" :: "x" :: s' | "0" :: "X" :: s' => match s' with [] => None | _ => int16_digits 0 false s' end
  | _ => int16_digits 0 true s
  end.
Definition int16 (s : text) : option Z :=
  match strip s with
  | "-" :: s => match int16_unsigned s with Some z => Some (- z)%Z | None => None end
  | "+" :: s => int16_unsigned s
  | s => int16_unsigned s
  end.

(** utils.py 478-479 *)
Definition is_v4_zero_ip (addr : text) : bool :=
  startswith (lit "0.0.0.0:") (last_of (split (lit "://") addr)).

(** utils.py 487-490, the loop over the parts *)
Fixpoint all_zero_parts (parts : list text) : option bool :=
  match parts with
  | [] => Some true
  | [] :: parts => all_zero_parts parts
  | part :: parts =>
      match int16 part with
      | None => None
      | Some z => if (z =? 0)%Z then all_zero_parts parts else Some false
      end
  end.

(** utils.py 482-491 *)
Definition is_v6_zero_ip (addr : text) : option bool :=
  let arr := split (lit ":") (last_of (split (lit "://") addr)) in
  if (List.length arr <=? 2)%nat then Some false
  else all_zero_parts (removelast arr).

(** utils.py 494-495, with the short-cut of [or] *)
Definition is_zero_ip (addr : text) : option bool :=
  if is_v4_zero_ip addr then Some true else is_v6_zero_ip addr.

(** utils.py 503-521.  [not a and not b] (line 514) evaluates [b] only if [a] is
    false, [a or b] (517) likewise, so both tests are [is_zero_ip]. *)
Definition fix_all_zero_ip (remote connect : text) : option text :=
  if text_eqb remote connect then Some remote
  else match is_zero_ip remote with
  | None => None
  | Some false => Some remote
  | Some true =>
      match is_zero_ip connect with
      | None => None
      | Some true => Some remote
      | Some false =>
          let remote_port := last_of (split (lit ":") remote) in
          let connect_ip := join (lit ":") (removelast (split (lit ":") connect)) in
          Some (connect_ip ++ lit ":" ++ remote_port)
      end
  end.

(** context.py 225-228: the address of the reference given to the caller, when
    the pool contacted at [connect] answers with address [answer]. *)
Definition obtained_address (connect answer : text) : option text :=
  if text_eqb answer connect then Some answer else fix_all_zero_ip answer connect.

(** pool.py 170-173: a pool enters its external address into the table of local
    pools unless it is a wildcard. *)
Definition registers_local_pool (external : text) : option bool :=
  match is_zero_ip external with Some b => Some (negb b) | None => None end.
