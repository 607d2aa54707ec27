(** * Model of the serializer of numpy arrays

    Source: python/xoscar/serialization/numpy.py 23-81 ([NDArraySerializer]).

    An array is what numpy keeps: a memory, the address of the first element, a shape, one
    stride per dimension (in bytes, of any sign) and an item size.  numpy itself is not part
    of the repository: the functions of it that the serializer calls are modelled from numpy's
    C code (_UpdateContiguousFlags with relaxed strides, ascontiguousarray, ravel,
    PyArray_CheckStrides and the constructor with an explicit buffer and strides).
    Not modelled: the encoding of the dtype (only its item size matters here), dtypes with
    Python objects (they are pickled, line 27-30), item size 0. *)
From Coq Require Import List ZArith Lia Bool.
Import ListNotations.
Open Scope Z_scope.

Record array := {
  mem : Z -> Z;             (* the bytes the array's data pointer can see *)
  base : Z;                 (* address of element (0,...,0) *)
  shape : list nat;
  strides : list Z;
  itemsize : nat }.

(** Address arithmetic of numpy: sum of index times stride. *)
Fixpoint dot (idx : list nat) (st : list Z) : Z :=
  match idx, st with
  | i :: idx, s :: st => Z.of_nat i * s + dot idx st
  | _, _ => 0
  end.
(** The bytes at addresses [a], [a+1], ..., [a+n-1]. *)
Fixpoint bytes (m : Z -> Z) (a : Z) (n : nat) : list Z :=
  match n with O => [] | S n => m a :: bytes m (a + 1) n end.
(** [arr[idx]], as the bytes of the item. *)
Definition item (a : array) (idx : list nat) : list Z :=
  bytes (mem a) (base a + dot idx (strides a)) (itemsize a).

(** numpy: [flags.c_contiguous].  The innermost dimension is last; dimensions of size 1 do
    not count; an array without elements is contiguous.  [c_go] returns the flag so far and the
    stride the next (outer) dimension must have. *)
Fixpoint c_go (isz : Z) (sh : list nat) (st : list Z) : bool * Z :=
  match sh, st with
  | d :: sh, s :: st =>
      let (ok, sd) := c_go isz sh st in
      if Nat.eqb d 1 then (ok, sd) else (ok && (s =? sd), sd * Z.of_nat d)
  | _, _ => (true, isz)
  end.
Definition has_zero (sh : list nat) : bool := existsb (Nat.eqb 0) sh.
Definition c_contiguous (a : array) : bool :=
  has_zero (shape a) || fst (c_go (Z.of_nat (itemsize a)) (shape a) (strides a)).
(** numpy: [flags.f_contiguous], the same with the dimensions in reverse order. *)
Definition f_contiguous (a : array) : bool :=
  has_zero (shape a) || fst (c_go (Z.of_nat (itemsize a)) (rev (shape a)) (rev (strides a))).

(** All indexes of a shape, the last one running fastest ("C") or the first one ("F"). *)
Fixpoint c_indexes (sh : list nat) : list (list nat) :=
  match sh with
  | [] => [[]]
  | d :: sh => flat_map (fun i => map (cons i) (c_indexes sh)) (seq 0 d)
  end.
Definition f_indexes (sh : list nat) : list (list nat) := map (@rev nat) (c_indexes (rev sh)).

Inductive order := OrderC | OrderF.
(** numpy: [arr.ravel(order)] then [.view("uint8")]: the bytes of all items in that order. *)
Definition ravel (a : array) (o : order) : list Z :=
  flat_map (item a) (match o with OrderC => c_indexes (shape a) | OrderF => f_indexes (shape a) end).

(** The memory whose byte number [k] is the k-th of the list. *)
Definition buffer (bs : list Z) : Z -> Z := fun k => nth (Z.to_nat k) bs 0.
(** The strides of a fresh C-ordered array (as in PyArray_NewFromDescr: a dimension of size 0
    counts as 1 for the outer strides). *)
Fixpoint fresh_strides (isz : Z) (sh : list nat) : list Z * Z :=
  match sh with
  | [] => ([], isz)
  | d :: sh => let (st, sd) := fresh_strides isz sh in (sd :: st, if Nat.eqb d 0 then sd else sd * Z.of_nat d)
  end.
(** numpy: [ascontiguousarray]: a fresh C-ordered copy; an array without dimensions becomes one
    of shape (1,). *)
Definition ascontiguousarray (a : array) : array :=
  let sh := match shape a with [] => [1%nat] | sh => sh end in
  {| mem := buffer (ravel a OrderC); base := 0; shape := sh;
     strides := fst (fresh_strides (Z.of_nat (itemsize a)) sh); itemsize := itemsize a |}.

Record header := { h_shape : list nat; h_strides : list Z; h_order : order; h_itemsize : nat }.

(** numpy.py 24-56 [serial] *)
Definition serial (a : array) : header * list Z :=
  let '(o, a) :=
    if f_contiguous a then (OrderF, a)
    else if negb (c_contiguous a) then (OrderC, ascontiguousarray a)
    else (OrderC, a) in
  ({| h_shape := shape a; h_strides := strides a; h_order := o; h_itemsize := itemsize a |}, ravel a o).

(** numpy: PyArray_CheckStrides with offset 0 on a buffer of [nbytes] bytes. *)
Fixpoint lower (sh : list nat) (st : list Z) : Z :=
  match sh, st with d :: sh, s :: st => Z.min 0 (s * (Z.of_nat d - 1)) + lower sh st | _, _ => 0 end.
Fixpoint upper (sh : list nat) (st : list Z) : Z :=
  match sh, st with d :: sh, s :: st => Z.max 0 (s * (Z.of_nat d - 1)) + upper sh st | _, _ => 0 end.
Definition items (sh : list nat) : Z := fold_right (fun d p => Z.of_nat d * p) 1 sh.
Definition check_strides (isz : Z) (nbytes : Z) (sh : list nat) (st : list Z) : bool :=
  let nbytes := if nbytes =? 0 then items sh * isz else nbytes in
  let '(lo, hi) := if has_zero sh then (0, 0) else (lower sh st, upper sh st + isz) in
  (hi <=? nbytes) && (0 <=? lo).

(** numpy.py 58-81 [deserial]: [np.ndarray(shape, dtype, buffer, strides, order)] raises
    ([None]) when the strides do not fit the shape or the buffer; with strides given, the order
    is not used. *)
Definition deserial (h : header) (bs : list Z) : option array :=
  if negb (Nat.eqb (length (h_strides h)) (length (h_shape h))) then None
  else if negb (check_strides (Z.of_nat (h_itemsize h)) (Z.of_nat (length bs)) (h_shape h) (h_strides h)) then None
  else Some {| mem := buffer bs; base := 0; shape := h_shape h; strides := h_strides h; itemsize := h_itemsize h |}.
