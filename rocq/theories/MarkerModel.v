(** * Model of requirement lists with markers

    Source: python/xoscar/virtualenv/core.py 60-106 ([process_packages]), 125-161
    ([substitute_variables]), 181-197 ([is_custom_marker]), 200-278 ([eval_custom_marker]),
    281-318 ([filter_requirements]); virtualenv/utils.py 87-100 ([is_vcs_url]).

    Text is a list of Unicode code points.  What other libraries parse is a parameter of the
    model: [packaging.requirements.Requirement] (the record [lib]), [ast.parse] of a
    marker, and the environment.  Their results are data types: requirements with their
    parts, and Python expression trees.

    Simplifications.  Values of variables and of the environment are None, booleans, integers
    and strings (floats, which behave like integers, and lists or dicts, whose JSON text is an
    expression that [_eval] refuses, are left out).  Only ASCII digits and capital letters are
    recognised as such.  [is_custom_marker] is a parameter, arbitrary in all theorems: the
    first component of packaging's marker tuples is an object, never equal to a string, so that
    the function answers true for every marker (and the [raise] of line 313 is dead). *)
From Coq Require Import String Ascii DecimalString.
From Coq Require Import List ZArith Lia Bool.
Import ListNotations.
Open Scope list_scope.
Open Scope Z_scope.

Definition text := list Z.
(** A literal text of the code. *)
Definition u (s : string) : text := map (fun c => Z.of_nat (nat_of_ascii c)) (list_ascii_of_string s).
Fixpoint teqb (a b : text) : bool :=
  match a, b with
  | [], [] => true
  | x :: a, y :: b => (x =? y) && teqb a b
  | _, _ => false
  end.

(** ** Python and JSON texts *)

(** str of an int *)
Definition str_int (z : Z) : text := u (NilZero.string_of_int (Z.to_int z)).
(** [json.dumps] of a string (Lib/json/encoder.py, py_encode_basestring_ascii) *)
Definition hexd (d : Z) : Z := if d <? 10 then 48 + d else 87 + d.
Definition uXXXX (n : Z) : text := [92; 117; hexd (n / 4096 mod 16); hexd (n / 256 mod 16); hexd (n / 16 mod 16); hexd (n mod 16)].
Definition json_char (c : Z) : text :=
  if c =? 34 then [92; 34] else if c =? 92 then [92; 92]
  else if c =? 10 then [92; 110] else if c =? 13 then [92; 114] else if c =? 9 then [92; 116]
  else if c =? 12 then [92; 102] else if c =? 8 then [92; 98]
  else if (32 <=? c) && (c <=? 126) then [c]
  else if c <? 65536 then uXXXX c
  else let n := c - 65536 in uXXXX (55296 + n / 1024 mod 1024) ++ uXXXX (56320 + n mod 1024).
Definition json_dumps (s : text) : text := 34 :: flat_map json_char s ++ [34].

(** How Python reads a literal in double quotes: after the opening quote, up to the closing one;
    the value and what follows.  (Only the escapes that JSON uses; others: None.) *)
Definition hexv (c : Z) : option Z :=
  if (48 <=? c) && (c <=? 57) then Some (c - 48)
  else if (97 <=? c) && (c <=? 102) then Some (c - 87)
  else if (65 <=? c) && (c <=? 70) then Some (c - 55) else None.
Fixpoint read_string (s : text) : option (text * text) :=
  match s with
  | [] => None
  | c :: s' =>
      if c =? 34 then Some ([], s')
      else if (c =? 10) || (c =? 13) then None
      else if c =? 92 then
        match s' with
        | e :: s'' =>
            let simple v := match read_string s'' with Some (t, r) => Some (v :: t, r) | None => None end in
            if e =? 34 then simple 34 else if e =? 92 then simple 92
            else if e =? 110 then simple 10 else if e =? 114 then simple 13 else if e =? 116 then simple 9
            else if e =? 102 then simple 12 else if e =? 98 then simple 8
            else if e =? 117 then
              match s'' with
              | a :: b :: c' :: d :: rest =>
                  match hexv a, hexv b, hexv c', hexv d with
                  | Some a, Some b, Some c', Some d =>
                      match read_string rest with
                      | Some (t, r) => Some (4096 * a + 256 * b + 16 * c' + d :: t, r)
                      | None => None
                      end
                  | _, _, _, _ => None
                  end
              | _ => None
              end
            else None
        | [] => None
        end
      else match read_string s' with Some (t, r) => Some (c :: t, r) | None => None end
  end.

(** [str.startswith] and [str.replace]: leftmost occurrences that do not overlap *)
Fixpoint starts (p s : text) : bool :=
  match p, s with
  | [], _ => true
  | x :: p, y :: s => (x =? y) && starts p s
  | _, _ => false
  end.
Fixpoint replace_go (old new : text) (skip : nat) (s : text) : text :=
  match s with
  | [] => []
  | c :: s' =>
      match skip with
      | S k => replace_go old new k s'
      | O => if starts old s then new ++ replace_go old new (Nat.pred (length old)) s' else c :: replace_go old new 0 s'
      end
  end.
Definition replace (s old new : text) : text := replace_go old new 0 s.
Fixpoint contains (p s : text) : bool :=
  starts p s || match s with [] => false | _ :: s' => contains p s' end.

(** ** Variables *)
Inductive value := VNone | VBool (b : bool) | VInt (z : Z) | VStr (t : text) | VVer (release : list N).
(** core.py 147-157 *)
Definition formatted (v : value) : text :=
  match v with
  | VNone => u "None"
  | VBool b => if b then u "True" else u "False"
  | VInt z => str_int z
  | VStr t => json_dumps t
  | VVer _ => []
  end.
(** core.py 125-161 *)
Definition placeholder (name : text) : text := 35 :: name ++ [35].
Fixpoint substitute_variables (s : text) (vars : list (text * value)) : text :=
  match vars with
  | [] => s
  | (n, v) :: vars =>
      substitute_variables (if contains (placeholder n) s then replace s (placeholder n) (formatted v) else s) vars
  end.

(** ** Evaluation of custom markers *)
Inductive cmp := Eq | NotEq | Lt | LtE | Gt | GtE | OtherCmp.
(** Python's expression trees (module ast); [Other]: every node the code does not support. *)
Inductive expr :=
| BoolOp (is_and : bool) (first : expr) (rest : list expr)
| Not (e : expr)
| Compare (lhs : expr) (rest : list (cmp * expr))
| Name (id : text)
| Const (v : value)
| Other.
Inductive error := TypeError | KeyError | InvalidVersion | ValueError | SyntaxError | InvalidRequirement.
Inductive res (A : Type) := Ok (a : A) | Err (e : error).
Arguments Ok {A} _. Arguments Err {A} _.

(** bool(v); objects without __bool__, like Version, are true *)
Definition truthy (v : value) : bool :=
  match v with
  | VNone => false
  | VBool b => b
  | VInt z => negb (z =? 0)
  | VStr [] => false
  | VStr (_ :: _) => true
  | VVer _ => true
  end.
Definition lower (t : text) : text := map (fun c => if (65 <=? c) && (c <=? 90) then c + 32 else c) t.
Definition is_digit (c : Z) : bool := (48 <=? c) && (c <=? 57).
(** [val.split(".")] *)
Fixpoint split_dot (t : text) : list text :=
  match t with
  | [] => [[]]
  | c :: t => if c =? 46 then [] :: split_dot t
              else match split_dot t with p :: ps => (c :: p) :: ps | [] => [[c]] end
  end.
Definition number (t : text) : N := fold_left (fun acc c => 10 * acc + Z.to_N (c - 48))%N t 0%N.
Definition nonempty (t : text) : bool := match t with [] => false | _ => true end.
(** core.py 213-228.  [Version] of digits and dots is valid iff no part is empty. *)
Definition normalize_value (v : value) : res value :=
  match v with
  | VStr t =>
      if teqb (lower t) (u "true") then Ok (VBool true)
      else if teqb (lower t) (u "false") then Ok (VBool false)
      else
        let parts := split_dot t in
        if (1 <? length parts)%nat && forallb (forallb is_digit) parts
        then if forallb nonempty parts then Ok (VVer (map number parts)) else Err InvalidVersion
        else Ok v
  | _ => Ok v
  end.
(** core.py 230-236; [int(...)] of ASCII digits (signs, blanks and underscores, which Python
    accepts too, are left out) *)
Definition maybe_parse_cuda_arch (v : value) : value :=
  match v with
  | VStr t =>
      if starts (u "sm_") t then let d := skipn 3 t in if nonempty d && forallb is_digit d then VInt (Z.of_N (number d)) else v
      else v
  | _ => v
  end.

(** Comparison operators of Python on these values.  Version compares its release numbers
    without trailing zeros. *)
Fixpoint strip0 (l : list Z) : list Z :=
  match l with
  | [] => []
  | x :: l => match strip0 l with [] => if x =? 0 then [] else [x] | r => x :: r end
  end.
Fixpoint lex (a b : list Z) : comparison :=
  match a, b with
  | [], [] => Datatypes.Eq
  | [], _ => Datatypes.Lt
  | _, [] => Datatypes.Gt
  | x :: a, y :: b => match x ?= y with Datatypes.Eq => lex a b | c => c end
  end.
Definition as_num (v : value) : option Z :=
  match v with VBool b => Some (if b then 1 else 0) | VInt z => Some z | _ => None end.
(** Three-way result for values that can be ordered. *)
Definition order (a b : value) : option comparison :=
  match a, b with
  | VStr s, VStr t => Some (lex s t)
  | VVer s, VVer t => Some (lex (strip0 (map Z.of_N s)) (strip0 (map Z.of_N t)))
  | _, _ => match as_num a, as_num b with Some x, Some y => Some (x ?= y) | _, _ => None end
  end.
Definition py_eq (a b : value) : bool :=
  match a, b with
  | VNone, VNone => true
  | _, _ => match order a b with Some Datatypes.Eq => true | _ => false end
  end.
Definition compare_op (o : cmp) (a b : value) : res bool :=
  let ord f := match order a b with Some c => Ok (f c) | None => Err TypeError end in
  match o with
  | Eq => Ok (py_eq a b)
  | NotEq => Ok (negb (py_eq a b))
  | Lt => ord (fun c => match c with Datatypes.Lt => true | _ => false end)
  | LtE => ord (fun c => match c with Datatypes.Gt => false | _ => true end)
  | Gt => ord (fun c => match c with Datatypes.Gt => true | _ => false end)
  | GtE => ord (fun c => match c with Datatypes.Lt => false | _ => true end)
  | OtherCmp => Err KeyError
  end.
(** core.py 251-256: an operand of a comparison *)
Definition operand (r : res value) : res value :=
  match r with
  | Ok v => match normalize_value v with Ok w => Ok (maybe_parse_cuda_arch w) | Err e => Err e end
  | Err e => Err e
  end.
(** core.py 238-278 [_eval] *)
Fixpoint eval (env : text -> value) (e : expr) : res value :=
  match e with
  | BoolOp is_and first rest =>
      let fix go (lv : value) (l : list expr) : res value :=
        match l with
        | [] => Ok lv
        | r :: l =>
            match eval env r with
            | Err x => Err x
            | Ok rv => go (if is_and then (if truthy lv then rv else lv) else (if truthy lv then lv else rv)) l
            end
        end in
      match eval env first with Ok v => go v rest | Err x => Err x end
  | Not e => match eval env e with Ok v => Ok (VBool (negb (truthy v))) | Err x => Err x end
  | Compare lhs rest =>
      let fix go (lv : value) (l : list (cmp * expr)) : res value :=
        match l with
        | [] => Ok (VBool true)
        | (o, r) :: l =>
            match operand (eval env r) with
            | Err x => Err x
            | Ok rv =>
                match compare_op o lv rv with
                | Err x => Err x
                | Ok true => go rv l
                | Ok false => Ok (VBool false)
                end
            end
        end in
      match operand (eval env lhs) with Ok v => go v rest | Err x => Err x end
  | Name id => normalize_value (env id)
  | Const v => Ok v
  | Other => Err ValueError
  end.

(** ** Requirements *)
Record req := { r_name : text; r_extras : list text; r_specifier : text; r_url : option text; r_marker : option text }.
Fixpoint join (sep : text) (l : list text) : text :=
  match l with [] => [] | [x] => x | x :: l => x ++ sep ++ join sep l end.
(** packaging: str(Requirement) (the extras are kept sorted) *)
Definition str_req (r : req) : text :=
  r_name r ++ match r_extras r with [] => [] | l => u "[" ++ join (u ",") l ++ u "]" end ++ r_specifier r ++
  match r_url r with Some x => u " @ " ++ x ++ match r_marker r with Some _ => u " " | None => [] end | None => [] end ++
  match r_marker r with Some m => u "; " ++ m | None => [] end.
(** The libraries: parsing a requirement (None: InvalidRequirement), evaluating the marker of a parsed
    requirement (it may raise), the custom test, Python's parser (None: SyntaxError). *)
Record lib := {
  parse_req : text -> option req;
  eval_std : text -> res bool;
  custom : text -> bool;
  parse_expr : text -> option expr;
  environment : text -> value }.
(** core.py 200-278 [eval_custom_marker] *)
Definition eval_custom_marker (L : lib) (marker : text) : res value :=
  match parse_expr L marker with Some e => eval (environment L) e | None => Err SyntaxError end.
(** utils.py 87-100 *)
Definition is_vcs_url (s : text) : bool :=
  existsb (fun p => starts p s) [u "git+"; u "http://"; u "https://"; u "svn+"; u "hg+"; u "bzr+"].
Definition is_space (c : Z) : bool := (c =? 32) || ((9 <=? c) && (c <=? 13)).
Fixpoint lstrip (s : text) : text := match s with c :: s' => if is_space c then lstrip s' else s | [] => [] end.
Definition strip (s : text) : text := rev (lstrip (rev (lstrip s))).
(** [s.split(";", 1)] *)
Fixpoint split_semi (s : text) : option (text * text) :=
  match s with
  | [] => None
  | c :: s' => if c =? 59 then Some ([], s') else match split_semi s' with Some (a, b) => Some (c :: a, b) | None => None end
  end.
(** core.py 292-316: one requirement; the texts appended to the result *)
Definition filter_one (L : lib) (vars : list (text * value)) (s : text) : res (list text) :=
  if is_vcs_url s then Ok [s]
  else match split_semi s with
  | Some (req_part, marker_part) =>
      let marker_part := substitute_variables (strip marker_part) vars in
      match parse_req L s with
      | Some r =>
          match r_marker r with
          | None => Ok [r_name r ++ r_specifier r]
          | Some m =>
              match eval_std L m with
              | Ok true => Ok [r_name r ++ r_specifier r]
              | Ok false => Ok []
              | Err e => Err e
              end
          end
      | None =>
          if custom L marker_part then
            match eval_custom_marker L marker_part with
            | Err e => Err e
            | Ok v =>
                if truthy v then
                  match parse_req L (strip req_part) with Some r => Ok [str_req r] | None => Err InvalidRequirement end
                else Ok []
            end
          else Err InvalidRequirement
      end
  | None => match parse_req L (strip s) with Some r => Ok [str_req r] | None => Err InvalidRequirement end
  end.
(** core.py 281-318 *)
Fixpoint filter_requirements (L : lib) (vars : list (text * value)) (l : list text) : res (list text) :=
  match l with
  | [] => Ok []
  | s :: l =>
      match filter_one L vars s with
      | Err e => Err e
      | Ok a => match filter_requirements L vars l with Ok b => Ok (a ++ b) | Err e => Err e end
      end
  end.

(** core.py 79-96: [process_packages]; [installed] is importlib.metadata.version, None when the package is
    not found (RuntimeError, here None). *)
Definition ends (p s : text) : bool := starts (rev p) (rev s).
Fixpoint before_plus (t : text) : text := match t with [] => [] | c :: t => if c =? 43 then [] else c :: before_plus t end.
Definition resolve (installed : text -> option text) (pkg : text) : option text :=
  if starts (u "#system_") pkg && ends (u "#") pkg then
    let real := removelast (skipn 8 pkg) in
    match installed real with Some v => Some (real ++ u "==" ++ before_plus v) | None => None end
  else Some pkg.
