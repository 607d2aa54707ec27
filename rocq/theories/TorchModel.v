(** * Model of the serializers of tensors, GPU arrays and sparse matrices

    Source: python/xoscar/serialization/torch.py 33-173 ([TorchTensorSerializer]), cuda.py 27-48
    ([CupySerializer]), scipy.py 28-67 ([CsrMatrixSerializer]).

    A tensor is what PyTorch keeps: a storage (bytes), an offset, a size and a stride for each
    dimension (both counted in elements), and an element size.  The functions of PyTorch, numpy
    and cupy that the serializers call are modelled from their sources: the contiguity tests
    (c10/core/TensorImpl.h), [contiguous], [numpy()], [view(dtype)] (ATen native, view_dtype), [set_],
    [np.frombuffer], [from_numpy], [view(shape)].  Dtypes are represented by their element size
    and whether numpy has them; the name of the dtype, which is copied, is left out.  Not
    modelled: sparse, quantized, conjugated and negated tensors, and [cudf] objects. *)
From Coq Require Import List ZArith Lia Bool.
From Verif Require Import NdModel.
Import ListNotations.
Open Scope Z_scope.

Record tensor := {
  store : list Z;          (* the bytes of the storage *)
  offset : Z;              (* storage_offset(), in elements *)
  size : list nat;
  stride : list Z;         (* in elements *)
  esize : nat;             (* element_size() *)
  in_numpy : bool;         (* numpy has this dtype (not bfloat16, float8, ...) *)
  grad : bool }.           (* requires_grad *)

(** Where the tensor's elements are: an array over the storage. *)
Definition view_of (t : tensor) : array :=
  {| mem := buffer (store t); base := offset t * Z.of_nat (esize t); shape := size t;
     strides := map (fun s => s * Z.of_nat (esize t)) (stride t); itemsize := esize t |}.
Definition numel (sh : list nat) : nat := fold_right Nat.mul 1%nat sh.

(** TensorImpl: [is_contiguous()] and [is_contiguous(memory_format=torch.channels_last)] *)
Definition is_contiguous (t : tensor) : bool := has_zero (size t) || fst (c_go 1 (size t) (stride t)).
Definition is_channels_last (t : tensor) : bool :=
  match size t, stride t with
  | [n; c; h; w], [sn; sc; sh; sw] => fst (c_go 1 [n; h; w; c] [sn; sh; sw; sc])
  | _, _ => false
  end.
(** [contiguous()] of a tensor that is not: a fresh copy in row-major order *)
Definition fresh (bs : list Z) (sh : list nat) (t : tensor) : tensor :=
  {| store := bs; offset := 0; size := sh; stride := fst (fresh_strides 1 sh); esize := esize t; in_numpy := in_numpy t; grad := grad t |}.
Definition contiguous (t : tensor) : tensor := fresh (ravel (view_of t) OrderC) (size t) t.
(** The memory of a contiguous tensor. *)
Definition data (t : tensor) : list Z :=
  bytes (buffer (store t)) (offset t * Z.of_nat (esize t)) (numel (size t) * esize t).

Inductive format := Numpy | Bytes.
Record theader := { th_size : list nat; th_stride : list Z; th_esize : nat; th_in_numpy : bool; th_grad : bool; th_format : format }.
Definition header_of (t : tensor) (f : format) : theader :=
  {| th_size := size t; th_stride := stride t; th_esize := esize t; th_in_numpy := in_numpy t; th_grad := grad t; th_format := f |}.

(** torch.py 37-63: CPU.  [numpy()] raises for a dtype that numpy lacks and for a tensor that requires
    grad; then [view(torch.uint8)] raises (None) for a tensor without dimensions, or whose last
    stride is not 1, unless the element size is 1. *)
Definition serial_cpu (t : tensor) : option (theader * list Z) :=
  let t := if is_contiguous t then t else contiguous t in
  if in_numpy t && negb (grad t) then Some (header_of t Numpy, data t)
  else if Nat.eqb (esize t) 1 then Some (header_of t Bytes, data t)
  else match rev (stride t) with
  | [] => None
  | s :: _ => if s =? 1 then Some (header_of t Bytes, data t) else None
  end.
(** torch.py 64-98: CUDA: the whole storage is sent *)
Definition serial_cuda (t : tensor) : theader * list Z :=
  let t := if is_contiguous t || is_channels_last t then t else contiguous t in
  (header_of t Bytes, store t).

(** [set_(storage, 0, size, stride)]: fails when the storage is too small (it cannot be resized here) *)
Definition needed (sh : list nat) (st : list Z) : Z := if has_zero sh then 0 else 1 + upper sh st.
Definition set_storage (h : theader) (bs : list Z) : option tensor :=
  if needed (th_size h) (th_stride h) * Z.of_nat (th_esize h) <=? Z.of_nat (length bs)
  then Some {| store := bs; offset := 0; size := th_size h; stride := th_stride h; esize := th_esize h; in_numpy := th_in_numpy h; grad := th_grad h |}
  else None.
(** torch.py 103-133 and 168-170: CPU.  [np.frombuffer] wants a multiple of the item size,
    [view(shape)] the right number of elements; the result has fresh strides. *)
Definition deserial_cpu (h : theader) (bs : list Z) : option tensor :=
  match th_format h with
  | Numpy =>
      if Nat.eqb (length bs) (numel (th_size h) * th_esize h)
      then Some {| store := bs; offset := 0; size := th_size h; stride := fst (fresh_strides 1 (th_size h));
                   esize := th_esize h; in_numpy := th_in_numpy h; grad := th_grad h |}
      else None
  | Bytes => set_storage h bs
  end.
(** torch.py 134-165: CUDA *)
Definition deserial_cuda (h : theader) (bs : list Z) : option tensor := set_storage h bs.

(** cuda.py 29-39: cupy arrays.  [copy]: [cupy.array(obj, copy=True)] keeps the order of the axes in
    memory, so it is a parameter: some array, densely packed. *)
Definition cupy_serial (copy : array -> array) (a : array) : header * list Z :=
  let a := if c_contiguous a || f_contiguous a then a else copy a in
  ({| h_shape := shape a; h_strides := strides a; h_order := OrderC; h_itemsize := itemsize a |},
   bytes (mem a) (base a) (numel (shape a) * itemsize a)).
(** cuda.py 41-48: no checks *)
Definition cupy_deserial (h : header) (bs : list Z) : array :=
  {| mem := buffer bs; base := 0; shape := h_shape h; strides := h_strides h; itemsize := h_itemsize h |}.

(** scipy.py 28-67: CSR matrices: three arrays, each serialized on its own; [S], [D] stand for serialize
    and deserialize. *)
Section csr.
  Context {A H B : Type}.
  Record csr := { c_data : A; c_indices : A; c_indptr : A; c_shape : list nat }.
  Definition csr_serial (S : A -> H * list B) (m : csr) : (H * nat * H * nat * H * list nat) * list B :=
    let (dh, db) := S (c_data m) in
    let (ih, ib) := S (c_indices m) in
    let (ph, pb) := S (c_indptr m) in
    ((dh, length db, ih, length ib, ph, c_shape m), db ++ ib ++ pb).
  Definition csr_deserial (D : H -> list B -> A) (s : H * nat * H * nat * H * list nat) (subs : list B) : csr :=
    let '(dh, nd, ih, ni, ph, sh) := s in
    {| c_data := D dh (firstn nd subs); c_indices := D ih (firstn ni (skipn nd subs)); c_indptr := D ph (skipn (nd + ni) subs); c_shape := sh |}.
End csr.
Arguments csr A : clear implicits.
