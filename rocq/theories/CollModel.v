(** * Model of the collective operations on numpy data (gloo backend)

    Source: python/xoscar/collective/process_group.py 177-331 ([ProcessGroupGloo]), common.py 38-65,
    collective/utils.py 21-33; cpp/collective/gloo/include/collective.h 27-78, src/allreduce.cc,
    reduce.cc, gather.cc, allgather.cc, scatter.cc, reduce_scatter.cc, all_to_all.cc, broadcast.cc;
    the functions of collective/core.py 418-737 and of [RankActor] (180-350) only pass their arguments on.

    Every member of the group has a memory, a function from addresses to bytes.  The Python and C++ layers are
    pointer arithmetic on it and are modelled as written.  gloo itself (third_party/gloo, not in the
    repository) is modelled by its documentation: [gloo_...] say which bytes are read from the members'
    inputs and written to their outputs.  How numbers are added, multiplied or compared is a parameter
    ([arith]); the order in which gloo combines is thereby left open.

    Simplifications.  All members call the same operation with the same [op], [root] and [tag]; calls whose types or
    sizes differ between members make the result None (gloo raises, or waits for ever), as does everything that
    raises.  [float_t] and [double_t] are float and double, as on x86-64 and ARM.  The temporary output that
    [reduce] allocates on other ranks than the root is left out (it is freed with [delete] instead of [delete[]]). *)
From Coq Require Import List ZArith Lia Bool.
Import ListNotations.
Open Scope Z_scope.

Definition mem := Z -> Z.
Definition load (m : mem) (p : Z) (n : nat) : list Z := map (fun i => m (p + Z.of_nat i)) (seq 0 n).
(** memcpy to [p] *)
Definition store (m : mem) (p : Z) (bs : list Z) : mem :=
  fun a => if (p <=? a) && (a <? p + Z.of_nat (length bs)) then nth (Z.to_nat (a - p)) bs 0 else m a.

(** ** numpy *)
Inductive dtype := Int8 | UInt8 | Int16 | UInt16 | Int32 | UInt32 | Int64 | UInt64 | Float16 | Float32 | Float64 | Bool | Complex128.
Definition itemsize (d : dtype) : nat :=
  match d with
  | Int8 | UInt8 | Bool => 1 | Int16 | UInt16 | Float16 => 2 | Int32 | UInt32 | Float32 => 4
  | Int64 | UInt64 | Float64 => 8 | Complex128 => 16
  end%nat.
Record ndarray := { ptr : Z; shape : list nat; strides : list Z; dt : dtype }.
Definition size (a : ndarray) : nat := fold_right Nat.mul 1%nat (shape a).
(** What a user passes: an array, or an object with a buffer (bytes, bytearray, memoryview ...). *)
Inductive data := Array (a : ndarray) | Buffer (p : Z) (len : nat).
(** collective/utils.py 21-25 *)
Definition convert_data_to_np_array (d : data) : ndarray :=
  match d with
  | Array a => a
  | Buffer p len => {| ptr := p; shape := [len]; strides := [1]; dt := UInt8 |}
  end.

(** ** Types and operators *)
(** common.py 55-65: [TypeMappingGloo]; KeyError for others.  collective.h 69-79. *)
Inductive gloo_type := glooInt8 | glooUint8 | glooInt32 | glooUint32 | glooInt64 | glooUint64 | glooFloat16 | glooFloat32 | glooFloat64.
Definition TypeMappingGloo (d : dtype) : option gloo_type :=
  match d with
  | Int8 => Some glooInt8 | UInt8 => Some glooUint8 | Int32 => Some glooInt32 | UInt32 => Some glooUint32
  | Int64 => Some glooInt64 | UInt64 => Some glooUint64
  | Float16 => Some glooFloat16 | Float32 => Some glooFloat32 | Float64 => Some glooFloat64
  | _ => None
  end.
(** The C++ types, and the switch of the [..._wrapper] functions *)
Inductive ctype := int8_t | uint8_t | int32_t | uint32_t | int64_t | uint64_t | float16 | float_ | double_.
Definition ctype_of (g : gloo_type) : ctype :=
  match g with
  | glooInt8 => int8_t | glooUint8 => uint8_t | glooInt32 => int32_t | glooUint32 => uint32_t
  | glooInt64 => int64_t | glooUint64 => uint64_t | glooFloat16 => float16 | glooFloat32 => float_ | glooFloat64 => double_
  end.
Definition sizeof (t : ctype) : nat :=
  match t with int8_t | uint8_t => 1 | float16 => 2 | int32_t | uint32_t | float_ => 4 | int64_t | uint64_t | double_ => 8 end%nat.
(** common.py 38-47: the values of the enumeration; 26-29: [xp.ReduceOp(value)] *)
Inductive reduce_op := SUM | PRODUCT | MIN | MAX | BAND | BOR | BXOR | UNUSED.
Definition op_value (o : reduce_op) : nat := match o with SUM => 0 | PRODUCT => 1 | MIN => 2 | MAX => 3 | BAND => 4 | BOR => 5 | BXOR => 6 | UNUSED => 7 end.
(** collective.h 28-37: the enumerators from 0; 41-67 ([toFunction]) and reduce_scatter.cc 23-53
    ([getReductionFunction]): the bitwise operators throw for every type. *)
Definition cpp_enumerators : list reduce_op := [SUM; PRODUCT; MIN; MAX; BAND; BOR; BXOR; UNUSED].
Inductive function := f_sum | f_product | f_min | f_max.
Definition to_function (value : nat) : option function :=
  match nth_error cpp_enumerators value with
  | Some SUM => Some f_sum
  | Some PRODUCT => Some f_product
  | Some MIN => Some f_min
  | Some MAX => Some f_max
  | _ => None
  end.

(** ** Calls *)
Fixpoint all_some {A} (l : list (option A)) : option (list A) :=
  match l with
  | [] => Some []
  | Some x :: l => match all_some l with Some r => Some (x :: r) | None => None end
  | None :: _ => None
  end.
Definition ctype_eq_dec (a b : ctype) : {a = b} + {a <> b}. Proof. decide equality. Defined.
(** What one member hands to gloo: type, number of elements, input and output pointers *)
Record call := { c_type : ctype; c_size : nat; c_in : list Z; c_out : Z }.
Definition agree (l : list call) : option (ctype * nat) :=
  match l with
  | [] => None
  | c :: r =>
      if forallb (fun d => (if ctype_eq_dec (c_type c) (c_type d) then true else false) && Nat.eqb (c_size c) (c_size d)) r
      then Some (c_type c, c_size c) else None
  end.
Record member := { memory : mem; send_data : data; recv_data : data }.
(** process_group.py 177-253, 271-303: reduce, allreduce, gather,
    allgather, reduce_scatter and alltoall take type and size from the data to send. *)
Definition call_by_send (s r : data) : option call :=
  let send_buf := convert_data_to_np_array s in
  let recv_buf := convert_data_to_np_array r in
  match TypeMappingGloo (dt send_buf) with
  | Some g => Some {| c_type := ctype_of g; c_size := size send_buf; c_in := [ptr send_buf]; c_out := ptr recv_buf |}
  | None => None
  end.
(** process_group.py 305-331: broadcast takes them from the data to receive. [s]: None when [send_data is None] *)
Definition call_broadcast (s : option data) (r : data) : option call :=
  let recv_buf := convert_data_to_np_array r in
  match TypeMappingGloo (dt recv_buf) with
  | Some g => Some {| c_type := ctype_of g; c_size := size recv_buf;
                      c_in := [match s with Some s => ptr (convert_data_to_np_array s) | None => ptr recv_buf end]; c_out := ptr recv_buf |}
  | None => None
  end.
(** process_group.py 255-269: scatter: the size is the sum of the sizes of all the data to send *)
Definition call_scatter (s : list data) (r : data) : option call :=
  let send_bufs := map convert_data_to_np_array s in
  let recv_buf := convert_data_to_np_array r in
  match TypeMappingGloo (dt recv_buf) with
  | Some g => Some {| c_type := ctype_of g; c_size := list_sum (map size send_bufs); c_in := map ptr send_bufs; c_out := ptr recv_buf |}
  | None => None
  end.

(** ** gloo *)
Section gloo.
  (** Combining one element of each member *)
  Variable arith : ctype -> function -> list (list Z) -> list Z.

  Definition input (T : ctype) (n : nat) (mc : mem * call) : list Z := load (fst mc) (hd 0 (c_in (snd mc))) (n * sizeof T).
  Definition element (T : ctype) (k : nat) (bs : list Z) : list Z := firstn (sizeof T) (skipn (k * sizeof T) bs).
  Definition reduced (T : ctype) (f : function) (n : nat) (l : list (mem * call)) : list Z :=
    flat_map (fun k => arith T f (map (fun mc => element T k (input T n mc)) l)) (seq 0 n).
  Definition write (mc : mem * call) (bs : list Z) : mem := store (fst mc) (c_out (snd mc)) bs.

  (** allreduce.cc 20-42: every output gets the reduction *)
  Definition gloo_allreduce (f : function) (T : ctype) (n : nat) (l : list (mem * call)) : option (list mem) :=
    Some (map (fun mc => write mc (reduced T f n l)) l).
  (** Only the root's output is given to gloo, or used. *)
  Definition only_root (root : nat) (l : list (mem * call)) (bs : list Z) : option (list mem) :=
    if (root <? length l)%nat
    then Some (map (fun r => match nth_error l r with Some mc => if Nat.eqb r root then write mc bs else fst mc | None => fun _ => 0 end) (seq 0 (length l)))
    else None.
  (** reduce.cc 20-50 *)
  Definition gloo_reduce (f : function) (root : nat) (T : ctype) (n : nat) (l : list (mem * call)) := only_root root l (reduced T f n l).
  (** gather.cc 20-39: the inputs one after the other, in the order of ranks *)
  Definition gloo_gather (root : nat) (T : ctype) (n : nat) (l : list (mem * call)) := only_root root l (flat_map (input T n) l).
  (** allgather.cc 21-39 *)
  Definition gloo_allgather (T : ctype) (n : nat) (l : list (mem * call)) : option (list mem) :=
    Some (map (fun mc => write mc (flat_map (input T n) l)) l).
  (** broadcast.cc 21-44 *)
  Definition gloo_broadcast (root : nat) (T : ctype) (n : nat) (l : list (mem * call)) : option (list mem) :=
    match nth_error l root with
    | Some mr => Some (map (fun mc => write mc (input T n mr)) l)
    | None => None
    end.
  (** all_to_all.cc 21-36: the r-th part of every input, in the order of ranks *)
  Definition gloo_alltoall (T : ctype) (n : nat) (l : list (mem * call)) : option (list mem) :=
    let part := (n * sizeof T / length l)%nat in
    if Nat.eqb (n * sizeof T mod length l) 0
    then Some (map (fun r => match nth_error l r with
           | Some mc => write mc (flat_map (fun mi => firstn part (skipn (r * part) (input T n mi))) l)
           | None => fun _ => 0 end) (seq 0 (length l)))
    else None.
  (** scatter.cc 19-41: all inputs and the output have size [n]; the root must have an input for each member *)
  Definition gloo_scatter (root : nat) (T : ctype) (n : nat) (l : list (mem * call)) : option (list mem) :=
    match nth_error l root with
    | Some (m, c) =>
        if Nat.eqb (length (c_in c)) (length l)
        then Some (map (fun r => match nth_error l r with
               | Some mc => write mc (load m (nth r (c_in c) 0) (n * sizeof T))
               | None => fun _ => 0 end) (seq 0 (length l)))
        else None
    | None => None
    end.
  (** reduce_scatter.cc 56-77: each rank gets its part of the reduction; the input is copied first.  gloo's
      [ReduceScatterHalvingDoubling] leaves the part of the rank at the beginning of the copy. *)
  Definition gloo_reduce_scatter (f : function) (elems : list nat) (T : ctype) (n : nat) (l : list (mem * call)) : option (list mem) :=
    if Nat.eqb (length elems) (length l) && Nat.eqb (list_sum elems) n
    then Some (map (fun r => match nth_error l r with
           | Some mc => write mc (firstn (nth r elems 0%nat * sizeof T) (skipn (list_sum (firstn r elems) * sizeof T) (reduced T f n l)))
           | None => fun _ => 0 end) (seq 0 (length l)))
    else None.

  (** ** The operations: what the members' memories are afterwards *)
  Definition collective (calls : list (option call)) (mems : list mem) (g : ctype -> nat -> list (mem * call) -> option (list mem)) : option (list mem) :=
    match all_some calls with
    | Some cs => match agree cs with Some (T, n) => g T n (combine mems cs) | None => None end
    | None => None
    end.
  Definition by_send (l : list member) := collective (map (fun x => call_by_send (send_data x) (recv_data x)) l) (map memory l).
  Definition with_function (o : reduce_op) (k : function -> option (list mem)) : option (list mem) :=
    match to_function (op_value o) with Some f => k f | None => None end.
  Definition allreduce (o : reduce_op) (l : list member) := with_function o (fun f => by_send l (gloo_allreduce f)).
  Definition reduce (o : reduce_op) (root : nat) (l : list member) := with_function o (fun f => by_send l (gloo_reduce f root)).
  Definition gather (root : nat) (l : list member) := by_send l (gloo_gather root).
  Definition allgather (l : list member) := by_send l gloo_allgather.
  Definition alltoall (l : list member) := by_send l gloo_alltoall.
  Definition reduce_scatter (o : reduce_op) (elems : list nat) (l : list member) := with_function o (fun f => by_send l (gloo_reduce_scatter f elems)).
  Definition broadcast (root : nat) (l : list (mem * option data * data)) :=
    collective (map (fun x => call_broadcast (snd (fst x)) (snd x)) l) (map (fun x => fst (fst x)) l) (gloo_broadcast root).
  Definition scatter (root : nat) (l : list (mem * list data * data)) :=
    collective (map (fun x => call_scatter (snd (fst x)) (snd x)) l) (map (fun x => fst (fst x)) l) (gloo_scatter root).
End gloo.
