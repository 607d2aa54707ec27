(** * MlxModel: the serializer of MLX arrays

    Models [MLXSerislizer] (/repo/python/xoscar/serialization/mlx.py 40-63) on strided arrays as in NdModel.
    MLX is not part of the repository.  Of it: [reshape(-1).view(uint8)] gives the bytes of the items in row-major
    order (a view or a copy; its memoryview may be strided, lines 48-51, whose bytes are the same), with the format
    "B"; [mx.array] of a buffer is a row-major copy; [view] and [reshape] of it need the sizes to
    agree.  A dtype is the name that [str] gives (mlx.core.NAME) and an item size.  The attributes of the module
    mlx.core that are dtypes are [attr]: attribute name to dtype.

    Simplification: what arrives is the format and the bytes of a buffer. *)
From Coq Require Import List ZArith Bool String.
From Verif Require Import NdModel.
Import ListNotations.

Record marray := mkA { arr : array; dtype : string }.
Record mheader := mkH { mh_shape : list nat; mh_format : string; mh_dtype : string }.
Definition count (sh : list nat) : nat := fold_right Nat.mul 1%nat sh.
(** 42-52 *)
Definition serial (a : marray) : mheader * list Z :=
  (mkH (shape (arr a)) "B" (dtype a), ravel (arr a) OrderC).
(** 54-63; None: it raises.  If the buffer has another format than was sent, [dtype] becomes a class of numpy (59), and
    [getattr(mx, dtype)] (63) raises TypeError. *)
Definition deserial (attr : string -> option (string * nat)) (h : mheader) (format : string) (bs : list Z) : option marray :=
  if negb (String.eqb format (mh_format h)) then None
  else match attr (mh_dtype h) with
  | None => None
  | Some (name, size) =>
      if Nat.eqb (List.length bs) (count (mh_shape h) * size)
      then Some (mkA {| mem := buffer bs; base := 0; shape := mh_shape h; strides := fst (fresh_strides (Z.of_nat size) (mh_shape h)); itemsize := size |} name)
      else None
  end.

(** MLX's dtypes: what [str] gives, and the size. *)
Definition dtypes : list (string * nat) :=
  [("bool", 1%nat); ("uint8", 1%nat); ("uint16", 2%nat); ("uint32", 4%nat); ("uint64", 8%nat); ("int8", 1%nat); ("int16", 2%nat); ("int32", 4%nat); ("int64", 8%nat);
   ("float16", 2%nat); ("bfloat16", 2%nat); ("float32", 4%nat); ("float64", 8%nat); ("complex64", 8%nat)]%string.
(** The module's attributes: the same names, but [bool_] for bool. *)
Definition attribute_name (name : string) : string := if String.eqb name "bool" then "bool_"%string else name.
Definition mlx (a : string) : option (string * nat) := find (fun d => String.eqb (attribute_name (fst d)) a) dtypes.
