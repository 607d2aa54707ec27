(** * C59: collective operations deliver what they promise and touch nothing else

    How to read.  [allreduce arith op l], [gather arith root l] ... are the members' memories after the operation;
    None: some member raises or waits for ever.  [arith T f xs] combines one element of each member
    (any function that returns an element of type [T]).  [kth m a k] are the bytes of the k-th element, in
    the usual order of iteration, of the array [a] in the memory [m]. *)
From Coq Require Import List ZArith Lia Bool PeanoNat.
From Verif Require Import CollModel.
Import ListNotations.
Open Scope Z_scope.

(** ** Specification *)
(** The index of the k-th element, last index fastest, and its place *)
Fixpoint coords (sh : list nat) (k : nat) : list nat :=
  match sh with
  | [] => []
  | _ :: sh => let p := fold_right Nat.mul 1%nat sh in (k / p)%nat :: coords sh (k mod p)
  end.
Fixpoint place (idx : list nat) (st : list Z) : Z :=
  match idx, st with i :: idx, s :: st => Z.of_nat i * s + place idx st | _, _ => 0 end.
Definition kth (m : mem) (a : ndarray) (k : nat) : list Z :=
  load m (ptr a + place (coords (shape a) k) (strides a)) (itemsize (dt a)).
(** C-contiguous: the elements follow each other. *)
Definition contiguous (a : ndarray) : Prop :=
  forall k, (k < size a)%nat -> place (coords (shape a) k) (strides a) = Z.of_nat (k * itemsize (dt a)).
(** numpy's view of the user's data *)
Definition array_of (d : data) : ndarray :=
  match d with Array a => a | Buffer p len => {| ptr := p; shape := [len]; strides := [1]; dt := UInt8 |} end.
(** The types and operators, by name *)
Inductive machine_type : dtype -> ctype -> Prop :=
| t_i8 : machine_type Int8 int8_t | t_u8 : machine_type UInt8 uint8_t
| t_i32 : machine_type Int32 int32_t | t_u32 : machine_type UInt32 uint32_t
| t_i64 : machine_type Int64 int64_t | t_u64 : machine_type UInt64 uint64_t
| t_f16 : machine_type Float16 float16 | t_f32 : machine_type Float32 float_ | t_f64 : machine_type Float64 double_.
Inductive operator : reduce_op -> function -> Prop :=
| o_sum : operator SUM f_sum | o_product : operator PRODUCT f_product | o_min : operator MIN f_min | o_max : operator MAX f_max.
(** [delivers recvs ms count want]: the members [recvs] (memory before, array to receive) have the memories [ms]
    afterwards; member [r]'s array has [want r k] as its k-th element for all k < [count r], and no other byte of its
    memory has changed. *)
Definition delivers (recvs : list (mem * ndarray)) (ms : list mem) (count : nat -> nat) (want : nat -> nat -> list Z) : Prop :=
  length ms = length recvs /\
  forall r m a m', nth_error recvs r = Some (m, a) -> nth_error ms r = Some m' ->
    (forall k, (k < count r)%nat -> kth m' a k = want r k) /\
    forall addr, addr < ptr a \/ ptr a + Z.of_nat (count r * itemsize (dt a)) <= addr -> m' addr = m addr.
Definition sent (x : member) : ndarray := array_of (send_data x).
Definition received (x : member) : ndarray := array_of (recv_data x).
Definition recvs (l : list member) : list (mem * ndarray) := map (fun x => (memory x, received x)) l.
(** Member [r]'s k-th element to send *)
Definition sent_by (l : list member) (r k : nat) : list Z :=
  match nth_error l r with Some x => kth (memory x) (sent x) k | None => [] end.
Definition ranks (l : list member) : list nat := seq 0 (length l).
(** All members send [n] elements of type [d] and have room for [count r]; all arrays are contiguous. *)
Definition proper (d : dtype) (n : nat) (count : nat -> nat) (l : list member) : Prop :=
  l <> [] /\ forall r x, nth_error l r = Some x ->
    contiguous (sent x) /\ dt (sent x) = d /\ size (sent x) = n /\
    contiguous (received x) /\ dt (received x) = d /\ (count r <= size (received x))%nat.
Definition typed (arith : ctype -> function -> list (list Z) -> list Z) : Prop :=
  forall T f xs, length (arith T f xs) = sizeof T.

(** ** Memory *)
Lemma load_len m p n : length (load m p n) = n.
Proof. unfold load. now rewrite map_length, seq_length. Qed.
Lemma load_nth m p n i : (i < n)%nat -> nth i (load m p n) 0 = m (p + Z.of_nat i).
Proof.
  intros H. unfold load. rewrite (nth_indep _ 0 (m (p + Z.of_nat 0))) by (rewrite map_length, seq_length; lia).
  rewrite (map_nth (fun i => m (p + Z.of_nat i))). now rewrite seq_nth.
Qed.
Lemma load_ext m m' p p' n : (forall i, (i < n)%nat -> m (p + Z.of_nat i) = m' (p' + Z.of_nat i)) -> load m p n = load m' p' n.
Proof. intros H. unfold load. apply map_ext_in. intros i I. apply in_seq in I. apply H. lia. Qed.
Lemma list_eq (x y : list Z) : length x = length y -> (forall i, (i < length x)%nat -> nth i x 0 = nth i y 0) -> x = y.
Proof. intros L H. apply (nth_ext x y 0 0 L H). Qed.
Lemma nth_part (bs : list Z) i j n : (j < n)%nat -> nth j (firstn n (skipn i bs)) 0 = nth (i + j) bs 0.
Proof.
  intros H. rewrite <- (firstn_skipn i bs) at 2. destruct (Nat.le_gt_cases i (length bs)).
  - rewrite app_nth2 by (rewrite firstn_length; lia). rewrite firstn_length, Nat.min_l by lia. replace (i + j - i)%nat with j by lia.
    rewrite <- (firstn_skipn n (skipn i bs)) at 2. destruct (Nat.le_gt_cases n (length (skipn i bs))).
    + rewrite app_nth1; [reflexivity|]. rewrite firstn_length. lia.
    + rewrite (skipn_all2 (n:=n)) by lia. now rewrite app_nil_r.
  - rewrite (skipn_all2 (n:=i)) by lia. rewrite firstn_nil, app_nil_r, !nth_overflow; [reflexivity|rewrite firstn_length; lia|cbn; lia].
Qed.
Lemma part_len (bs : list Z) i n : (i + n <= length bs)%nat -> length (firstn n (skipn i bs)) = n.
Proof. intros H. rewrite firstn_length, skipn_length. lia. Qed.
Lemma load_part m p n i j : (i + j <= n)%nat -> firstn j (skipn i (load m p n)) = load m (p + Z.of_nat i) j.
Proof.
  intros H. apply list_eq; [rewrite part_len, load_len; [reflexivity|rewrite load_len; lia]|].
  rewrite part_len by (rewrite load_len; lia). intros k K. rewrite nth_part, !load_nth by lia. f_equal. lia.
Qed.
Lemma load_store m p bs i n : (i + n <= length bs)%nat -> load (store m p bs) (p + Z.of_nat i) n = firstn n (skipn i bs).
Proof.
  intros H. apply list_eq; [now rewrite load_len, part_len|]. rewrite load_len. intros k K. rewrite load_nth, nth_part by lia.
  unfold store. rewrite (proj2 (andb_true_iff _ _)) by (split; [apply Z.leb_le|apply Z.ltb_lt]; lia). f_equal. lia.
Qed.
Lemma store_outside m p bs a : a < p \/ p + Z.of_nat (length bs) <= a -> store m p bs a = m a.
Proof.
  intros H. unfold store. replace ((p <=? a) && (a <? p + Z.of_nat (length bs))) with false; [reflexivity|].
  symmetry. apply andb_false_iff. destruct H; [left; apply Z.leb_gt|right; apply Z.ltb_ge]; lia.
Qed.
(** Blocks of equal length *)
Lemma blocks_len {A} (g : A -> list Z) w l : (forall x, In x l -> length (g x) = w) -> length (flat_map g l) = (length l * w)%nat.
Proof.
  induction l as [|x l IH]; intros H; [reflexivity|]. cbn [flat_map length]. rewrite app_length, (H x) by now left. rewrite IH; [cbn; lia|].
  intros y Y. apply H. now right.
Qed.
Lemma block_nth {A} (g : A -> list Z) w l k x : (forall x, In x l -> length (g x) = w) -> nth_error l k = Some x ->
  firstn w (skipn (k * w) (flat_map g l)) = g x.
Proof.
  revert k. induction l as [|y l IH]; intros [|k] H E; try discriminate; cbn [nth_error flat_map] in *.
  - injection E as ->. cbn [Nat.mul skipn]. specialize (H x (or_introl eq_refl)). rewrite firstn_app, H, Nat.sub_diag. cbn [firstn].
    rewrite app_nil_r. apply firstn_all2. lia.
  - rewrite skipn_app, H by now left. cbn [Nat.mul]. rewrite skipn_all2 by (rewrite H; [lia|now left]).
    cbn [app]. replace (w + k * w - w)%nat with (k * w)%nat by lia. apply IH; auto. intros z Z. apply H. now right.
Qed.
(** Parts of parts *)
Lemma part_part (bs : list Z) i n j k : (j + k <= n)%nat -> firstn k (skipn j (firstn n (skipn i bs))) = firstn k (skipn (i + j) bs).
Proof.
  intros H. rewrite skipn_firstn_comm, firstn_firstn. rewrite Nat.min_l by lia. f_equal. clear H.
  revert bs. induction i as [|i IH]; intros [|b bs]; cbn [skipn Nat.add]; try reflexivity; [now rewrite !skipn_nil|apply IH].
Qed.

(** ** Calls *)
Lemma conv_array d : convert_data_to_np_array d = array_of d.
Proof. now destruct d. Qed.
Lemma mapped d T : machine_type d T -> exists g, TypeMappingGloo d = Some g /\ ctype_of g = T /\ sizeof T = itemsize d.
Proof. intros H. inversion H; subst; cbn; eauto. Qed.
Lemma function_ok o f : operator o f -> to_function (op_value o) = Some f.
Proof. intros H. now inversion H; subst. Qed.
Lemma all_some_map {A B} (g : A -> option B) (h : A -> B) l : (forall x, In x l -> g x = Some (h x)) -> all_some (map g l) = Some (map h l).
Proof.
  induction l as [|x l IH]; intros H; [reflexivity|]. cbn [map all_some]. rewrite (H x) by now left. rewrite IH; [reflexivity|].
  intros y Y. apply H. now right.
Qed.
Lemma agree_ok T n l : l <> [] -> (forall c, In c l -> c_type c = T /\ c_size c = n) -> agree l = Some (T, n).
Proof.
  destruct l as [|c r]; [congruence|]. intros _ H. cbn [agree]. destruct (H c (or_introl eq_refl)) as [-> ->].
  rewrite (proj2 (forallb_forall _ _)); [reflexivity|]. intros x X. destruct (H x (or_intror X)) as [-> ->].
  destruct (ctype_eq_dec T T); [|congruence]. cbn. apply Nat.eqb_refl.
Qed.
Definition the_call (T : ctype) (n : nat) (x : member) : call := {| c_type := T; c_size := n; c_in := [ptr (sent x)]; c_out := ptr (received x) |}.
Definition pairs (T : ctype) (n : nat) (l : list member) : list (mem * call) := map (fun x => (memory x, the_call T n x)) l.
Lemma combine_map {A B C} (f : A -> B) (g : A -> C) l : combine (map f l) (map g l) = map (fun x => (f x, g x)) l.
Proof. induction l as [|x l IH]; cbn; [reflexivity|]. now rewrite IH. Qed.
Lemma by_send_ok d T n count l g : machine_type d T -> proper d n count l -> by_send l g = g T n (pairs T n l).
Proof.
  intros M (NE & P). unfold by_send, collective. destruct (mapped d T M) as (gt & G1 & G2 & _).
  rewrite (all_some_map _ (the_call T n)).
  - rewrite (agree_ok T n); [now rewrite combine_map| |].
    + destruct l; [congruence|discriminate].
    + intros c C. apply in_map_iff in C as (x & <- & _). now split.
  - intros x X. apply In_nth_error in X as (r & R). destruct (P r x R) as (_ & D & S & _). unfold call_by_send, the_call.
    rewrite !conv_array. unfold sent, received in *. now rewrite D, G1, G2, S.
Qed.
Lemma pairs_nth T n l r : nth_error (pairs T n l) r = match nth_error l r with Some x => Some (memory x, the_call T n x) | None => None end.
Proof. unfold pairs. rewrite nth_error_map. now destruct (nth_error l r). Qed.
Lemma recvs_nth l r m a : nth_error (recvs l) r = Some (m, a) -> exists x, nth_error l r = Some x /\ m = memory x /\ a = received x.
Proof. unfold recvs. rewrite nth_error_map. destruct (nth_error l r) as [x|]; [|discriminate]. intros E. injection E as <- <-. eauto. Qed.
Lemma input_element d T n count l x k : machine_type d T -> proper d n count l -> In x l -> (k < n)%nat ->
  element T k (input T n (memory x, the_call T n x)) = kth (memory x) (sent x) k.
Proof.
  intros M (NE & P) X K. apply In_nth_error in X as (r & R). destruct (P r x R) as (C & D & S & _).
  destruct (mapped d T M) as (_ & _ & _ & E). unfold element, input. cbn [fst snd the_call c_in hd].
  rewrite load_part by nia. unfold kth. rewrite C by lia. now rewrite D, E.
Qed.
(** What a write leaves in an array *)
Lemma write_ok d T n x bs cnt : sizeof T = itemsize d -> dt (received x) = d -> contiguous (received x) -> (cnt <= size (received x))%nat ->
  length bs = (cnt * sizeof T)%nat ->
  let m' := write (memory x, the_call T n x) bs in
  (forall k, (k < cnt)%nat -> kth m' (received x) k = firstn (sizeof T) (skipn (k * sizeof T) bs)) /\
  forall a, a < ptr (received x) \/ ptr (received x) + Z.of_nat (cnt * itemsize (dt (received x))) <= a -> m' a = memory x a.
Proof.
  intros E D C L B. unfold write. cbn [fst snd the_call c_out]. split.
  - intros k K. unfold kth. rewrite C by lia. rewrite D, <- E. apply load_store. nia.
  - intros a A. apply store_outside. rewrite B, E. now rewrite D in A.
Qed.
Lemma nth_error_In' {A} (l : list A) r x : nth_error l r = Some x -> In x l.
Proof. apply nth_error_In. Qed.

Section ops.
  Variable arith : ctype -> function -> list (list Z) -> list Z.
  Hypothesis arith_typed : typed arith.

  Lemma sent_by_map d T n count l k : machine_type d T -> proper d n count l -> (k < n)%nat ->
    map (fun mc => element T k (input T n mc)) (pairs T n l) = map (fun r => sent_by l r k) (ranks l).
  Proof.
    intros M P K. unfold pairs. rewrite map_map. unfold ranks, sent_by.
    transitivity (map (fun x => kth (memory x) (sent x) k) l).
    - apply map_ext_in. intros x X. now apply (input_element d T n count l).
    - clear. rewrite <- (map_map (fun r => nth_error l r) (fun o => match o with Some x => kth (memory x) (sent x) k | None => [] end)).
      assert (E : map (nth_error l) (seq 0 (length l)) = map Some l).
      { induction l as [|x l IH]; [reflexivity|]. cbn [length seq map nth_error]. f_equal. rewrite <- IH, <- seq_shift, map_map. reflexivity. }
      change (fun r => nth_error l r) with (nth_error l). rewrite E, map_map. reflexivity.
  Qed.
  Lemma reduced_len T f n l : length (reduced arith T f n l) = (n * sizeof T)%nat.
  Proof. unfold reduced. rewrite (blocks_len _ (sizeof T)); [now rewrite seq_length|]. intros x _. apply arith_typed. Qed.
  Lemma reduced_nth d T f n count l k : machine_type d T -> proper d n count l -> (k < n)%nat ->
    firstn (sizeof T) (skipn (k * sizeof T) (reduced arith T f n (pairs T n l))) = arith T f (map (fun r => sent_by l r k) (ranks l)).
  Proof.
    intros M P K. unfold reduced. rewrite (block_nth _ (sizeof T) _ k k).
    - f_equal. now apply (sent_by_map d T n count).
    - intros x _. apply arith_typed.
    - rewrite nth_error_nth' with (d := 0%nat) by (rewrite seq_length; lia). now rewrite seq_nth.
  Qed.
  Lemma seq_nth_error n r : (r < n)%nat -> nth_error (seq 0 n) r = Some r.
  Proof. intros H. rewrite nth_error_nth' with (d := 0%nat) by (rewrite seq_length; lia). now rewrite seq_nth. Qed.

  (** ** Theorems *)
  (** Every member receives the combination of the members' elements. *)
  Theorem C59_allreduce d T o f n l : machine_type d T -> operator o f -> proper d n (fun _ => n) l ->
    exists ms, allreduce arith o l = Some ms /\
      delivers (recvs l) ms (fun _ => n) (fun _ k => arith T f (map (fun r => sent_by l r k) (ranks l))).
  Proof.
    intros M O P. unfold allreduce, with_function. rewrite (function_ok o f O), (by_send_ok d T n _ l _ M P). unfold gloo_allreduce.
    eexists. split; [reflexivity|]. split; [unfold recvs, pairs; now rewrite !map_length|].
    intros r m a m' E1 E2. apply recvs_nth in E1 as (x & R & -> & ->). rewrite nth_error_map, pairs_nth, R in E2. injection E2 as <-.
    destruct (proj2 P r x R) as (_ & _ & _ & C & D & S). destruct (mapped d T M) as (_ & _ & _ & E).
    destruct (write_ok d T n x _ n E D C S (reduced_len T f n (pairs T n l))) as (A & B). split; [|exact B].
    intros k K. rewrite A by exact K. now apply (reduced_nth d T f n (fun _ => n)).
  Qed.
  (** Only the root receives. *)
  Lemma only_root_ok d T n count l root bs cnt : machine_type d T -> proper d n count l -> (root < length l)%nat ->
    count root = cnt -> (forall r, r <> root -> count r = 0%nat) -> length bs = (cnt * sizeof T)%nat ->
    exists ms, only_root root (pairs T n l) bs = Some ms /\
      delivers (recvs l) ms count (fun _ k => firstn (sizeof T) (skipn (k * sizeof T) bs)).
  Proof.
    intros M P R0 C0 CN L. unfold only_root. unfold pairs at 1. rewrite map_length. rewrite (proj2 (Nat.ltb_lt _ _) R0).
    eexists. split; [reflexivity|]. split; [unfold recvs, pairs; now rewrite !map_length, seq_length|].
    intros r m a m' E1 E2. apply recvs_nth in E1 as (x & R & -> & ->).
    assert (RL : (r < length l)%nat) by (apply nth_error_Some; congruence).
    rewrite nth_error_map, seq_nth_error in E2 by (unfold pairs; now rewrite map_length). cbn [option_map] in E2. rewrite pairs_nth, R in E2. injection E2 as <-.
    destruct (proj2 P r x R) as (_ & _ & _ & C & D & S). destruct (mapped d T M) as (_ & _ & _ & E).
    destruct (Nat.eqb_spec r root) as [->|NR].
    - rewrite C0 in S |- *. exact (write_ok d T n x bs cnt E D C S L).
    - rewrite (CN r NR). split; [intros k K; lia|]. reflexivity.
  Qed.
  Definition at_root (root n : nat) : nat -> nat := fun r => if Nat.eqb r root then n else 0%nat.
  Lemma at_root_here root n : at_root root n root = n.
  Proof. unfold at_root. now rewrite Nat.eqb_refl. Qed.
  Lemma at_root_else root n r : r <> root -> at_root root n r = 0%nat.
  Proof. intros H. unfold at_root. now rewrite (proj2 (Nat.eqb_neq r root) H). Qed.
  Theorem C59_reduce d T o f n root l : machine_type d T -> operator o f -> proper d n (at_root root n) l -> (root < length l)%nat ->
    exists ms, reduce arith o root l = Some ms /\
      delivers (recvs l) ms (at_root root n) (fun _ k => arith T f (map (fun r => sent_by l r k) (ranks l))).
  Proof.
    intros M O P R. unfold reduce, with_function. rewrite (function_ok o f O), (by_send_ok d T n _ l _ M P). unfold gloo_reduce.
    destruct (only_root_ok d T n _ l root _ n M P R (at_root_here root n) (at_root_else root n) (reduced_len T f n (pairs T n l))) as (ms & E & (L & H)).
    exists ms. split; [exact E|]. split; [exact L|]. intros r m a m' E1 E2. destruct (H r m a m' E1 E2) as (A & B). split; [|exact B].
    intros k K. rewrite A by exact K. assert (k < n)%nat by (unfold at_root in K; destruct (Nat.eqb r root); lia).
    now apply (reduced_nth d T f n (at_root root n)).
  Qed.
  Lemma gathered_len T n l : length (flat_map (input T n) (pairs T n l)) = (length l * n * sizeof T)%nat.
  Proof. rewrite (blocks_len _ (n * sizeof T)); [unfold pairs; rewrite map_length; lia|]. intros x _. apply load_len. Qed.
  Lemma gathered_nth d T n count l k : machine_type d T -> proper d n count l -> (k < length l * n)%nat ->
    firstn (sizeof T) (skipn (k * sizeof T) (flat_map (input T n) (pairs T n l))) = sent_by l (k / n) (k mod n).
  Proof.
    intros M P K. assert (N : (n <> 0)%nat) by lia. assert (I : (k / n < length l)%nat) by (apply Nat.div_lt_upper_bound; lia).
    destruct (nth_error l (k / n)) as [x|] eqn:X; [|apply nth_error_None in X; lia]. unfold sent_by. rewrite X.
    pose proof (Nat.div_mod k n N) as DM. pose proof (Nat.mod_upper_bound k n N) as MB.
    rewrite <- (input_element d T n count l x (k mod n) M P (nth_error_In _ _ X)) by lia. unfold element.
    rewrite <- (block_nth (input T n) (n * sizeof T) (pairs T n l) (k / n)).
    - rewrite part_part by nia. f_equal. f_equal. nia.
    - intros y _. apply load_len.
    - now rewrite pairs_nth, X.
  Qed.
  (** The root receives the members' elements one member after the other. *)
  Theorem C59_gather d T n root l : machine_type d T -> proper d n (at_root root (length l * n)) l -> (root < length l)%nat ->
    exists ms, gather root l = Some ms /\
      delivers (recvs l) ms (at_root root (length l * n)) (fun _ k => sent_by l (k / n) (k mod n)).
  Proof.
    intros M P R. unfold gather. rewrite (by_send_ok d T n _ l _ M P). unfold gloo_gather.
    destruct (only_root_ok d T n _ l root _ (length l * n) M P R (at_root_here root _) (at_root_else root _) (gathered_len T n l)) as (ms & E & (L & H)).
    exists ms. split; [exact E|]. split; [exact L|]. intros r m a m' E1 E2. destruct (H r m a m' E1 E2) as (A & B). split; [|exact B].
    intros k K. rewrite A by exact K. apply (gathered_nth d T n (at_root root (length l * n))); auto.
    unfold at_root in K; destruct (Nat.eqb r root); lia.
  Qed.
  (** Every member receives them. *)
  Theorem C59_allgather d T n l : machine_type d T -> proper d n (fun _ => (length l * n)%nat) l ->
    exists ms, allgather l = Some ms /\
      delivers (recvs l) ms (fun _ => (length l * n)%nat) (fun _ k => sent_by l (k / n) (k mod n)).
  Proof.
    intros M P. unfold allgather. rewrite (by_send_ok d T n _ l _ M P). unfold gloo_allgather.
    eexists. split; [reflexivity|]. split; [unfold recvs, pairs; now rewrite !map_length|].
    intros r m a m' E1 E2. apply recvs_nth in E1 as (x & R & -> & ->). rewrite nth_error_map, pairs_nth, R in E2. injection E2 as <-.
    destruct (proj2 P r x R) as (_ & _ & _ & C & D & S). destruct (mapped d T M) as (_ & _ & _ & E).
    destruct (write_ok d T n x _ _ E D C S (gathered_len T n l)) as (A & B). split; [|exact B].
    intros k K. rewrite A by exact K. now apply (gathered_nth d T n (fun _ => (length l * n)%nat)).
  Qed.
  (** Member [r] receives the r-th part of what each member sends. *)
  Theorem C59_alltoall d T q l : machine_type d T -> proper d (length l * q) (fun _ => (length l * q)%nat) l ->
    exists ms, alltoall l = Some ms /\
      delivers (recvs l) ms (fun _ => (length l * q)%nat) (fun r k => sent_by l (k / q) (r * q + k mod q)).
  Proof.
    intros M P. set (n := (length l * q)%nat) in *. unfold alltoall. rewrite (by_send_ok d T n _ l _ M P). unfold gloo_alltoall.
    assert (NL : length l <> 0%nat) by (destruct P as (NE & _); destruct l; [congruence|discriminate]).
    assert (LP : length (pairs T n l) = length l) by (unfold pairs; now rewrite map_length). rewrite LP.
    assert (PQ : (n * sizeof T / length l = q * sizeof T)%nat).
    { unfold n. replace (length l * q * sizeof T)%nat with (q * sizeof T * length l)%nat by lia. now apply Nat.div_mul. }
    rewrite PQ. replace ((n * sizeof T) mod length l)%nat with 0%nat.
    2:{ unfold n. replace (length l * q * sizeof T)%nat with (q * sizeof T * length l)%nat by lia. symmetry. now apply Nat.mod_mul. }
    cbn [Nat.eqb].
    eexists. split; [reflexivity|]. split; [unfold recvs; now rewrite !map_length, seq_length|].
    intros r m a m' E1 E2. apply recvs_nth in E1 as (x & R & -> & ->).
    assert (RL : (r < length l)%nat) by (apply nth_error_Some; congruence).
    rewrite nth_error_map, seq_nth_error in E2 by exact RL. cbn [option_map] in E2. rewrite pairs_nth, R in E2. injection E2 as <-.
    destruct (proj2 P r x R) as (_ & _ & _ & C & D & S). destruct (mapped d T M) as (_ & _ & _ & E).
    assert (PL : forall y, In y (pairs T n l) -> length (firstn (q * sizeof T) (skipn (r * (q * sizeof T)) (input T n y))) = (q * sizeof T)%nat).
    { intros y _. apply part_len. unfold input. rewrite load_len. unfold n. nia. }
    assert (BL : length (flat_map (fun mi => firstn (q * sizeof T) (skipn (r * (q * sizeof T)) (input T n mi))) (pairs T n l)) = (n * sizeof T)%nat).
    { rewrite (blocks_len _ (q * sizeof T)) by exact PL. rewrite LP. unfold n. lia. }
    destruct (write_ok d T n x _ n E D C S BL) as (A & B). split; [|exact B].
    intros k K. rewrite A by exact K. assert (Q : q <> 0%nat) by (unfold n in K; lia).
    assert (I : (k / q < length l)%nat) by (apply Nat.div_lt_upper_bound; unfold n in K; lia).
    destruct (nth_error l (k / q)) as [y|] eqn:Y; [|apply nth_error_None in Y; lia]. unfold sent_by. rewrite Y.
    pose proof (Nat.div_mod k q Q) as DM. pose proof (Nat.mod_upper_bound k q Q) as MB.
    assert (IN : (r * q + k mod q < n)%nat) by (unfold n; nia).
    rewrite <- (input_element d T n (fun _ => n) l y (r * q + k mod q) M P (nth_error_In _ _ Y) IN). unfold element.
    assert (BY := block_nth (fun mi => firstn (q * sizeof T) (skipn (r * (q * sizeof T)) (input T n mi))) (q * sizeof T) (pairs T n l) (k / q) (memory y, the_call T n y) PL).
    rewrite pairs_nth, Y in BY. specialize (BY eq_refl). cbv beta in BY.
    transitivity (firstn (sizeof T) (skipn (k mod q * sizeof T) (firstn (q * sizeof T) (skipn (k / q * (q * sizeof T))
      (flat_map (fun mi => firstn (q * sizeof T) (skipn (r * (q * sizeof T)) (input T n mi))) (pairs T n l)))))).
    - rewrite part_part by nia. f_equal. f_equal. nia.
    - rewrite BY, part_part by nia. f_equal. f_equal. nia.
  Qed.
  (** Member [r] receives its part of the combination. *)
  Theorem C59_reduce_scatter d T o f elems l : machine_type d T -> operator o f -> length elems = length l ->
    proper d (list_sum elems) (fun r => nth r elems 0%nat) l ->
    exists ms, reduce_scatter arith o elems l = Some ms /\
      delivers (recvs l) ms (fun r => nth r elems 0%nat)
        (fun r k => arith T f (map (fun i => sent_by l i (list_sum (firstn r elems) + k)) (ranks l))).
  Proof.
    intros M O LE P. set (n := list_sum elems) in *. unfold reduce_scatter, with_function.
    rewrite (function_ok o f O), (by_send_ok d T n _ l _ M P). unfold gloo_reduce_scatter.
    assert (LP : length (pairs T n l) = length l) by (unfold pairs; now rewrite map_length). rewrite LP, LE, Nat.eqb_refl.
    fold n. rewrite Nat.eqb_refl. cbn [andb].
    eexists. split; [reflexivity|]. split; [unfold recvs; now rewrite !map_length, seq_length|].
    intros r m a m' E1 E2. apply recvs_nth in E1 as (x & R & -> & ->).
    assert (RL : (r < length l)%nat) by (apply nth_error_Some; congruence).
    rewrite nth_error_map, seq_nth_error in E2 by exact RL. cbn [option_map] in E2. rewrite pairs_nth, R in E2. injection E2 as <-.
    destruct (proj2 P r x R) as (_ & _ & _ & C & D & S). destruct (mapped d T M) as (_ & _ & _ & E).
    assert (SUM' : (list_sum (firstn r elems) + nth r elems 0 <= n)%nat).
    { unfold n. rewrite <- (firstn_skipn r elems) at 3. rewrite list_sum_app. apply Nat.add_le_mono_l.
      rewrite <- (firstn_skipn r elems) at 1. rewrite app_nth2 by (rewrite firstn_length; lia). rewrite firstn_length, Nat.min_l, Nat.sub_diag by lia.
      destruct (skipn r elems); cbn; lia. }
    set (p := list_sum (firstn r elems)) in *.
    assert (BL : length (firstn (nth r elems 0%nat * sizeof T) (skipn (p * sizeof T) (reduced arith T f n (pairs T n l)))) = (nth r elems 0%nat * sizeof T)%nat).
    { apply part_len. rewrite reduced_len. nia. }
    destruct (write_ok d T n x _ _ E D C S BL) as (A & B). split; [|exact B].
    intros k K. rewrite A by exact K. rewrite part_part by nia.
    rewrite <- (reduced_nth d T f n (fun r => nth r elems 0%nat) l (p + k) M P) by lia. f_equal. f_equal. lia.
  Qed.
End ops.

(** *** Broadcast *)
Definition b_recvs (l : list (mem * option data * data)) : list (mem * ndarray) := map (fun x => (fst (fst x), array_of (snd x))) l.
(** What the root sends: [send_data], or its receive buffer when [send_data] is None *)
Definition b_source (x : mem * option data * data) : ndarray := match snd (fst x) with Some s => array_of s | None => array_of (snd x) end.
Theorem C59_broadcast d T n root l x0 : machine_type d T -> nth_error l root = Some x0 ->
  contiguous (b_source x0) -> dt (b_source x0) = d -> size (b_source x0) = n ->
  (forall x, In x l -> contiguous (array_of (snd x)) /\ dt (array_of (snd x)) = d /\ size (array_of (snd x)) = n) ->
  exists ms, broadcast root l = Some ms /\ delivers (b_recvs l) ms (fun _ => n) (fun _ k => kth (fst (fst x0)) (b_source x0) k).
Proof.
  intros M R0 C0 D0 S0 P. destruct (mapped d T M) as (gt & G1 & G2 & E). unfold broadcast, collective.
  set (bc := fun x : mem * option data * data => {| c_type := T; c_size := n; c_in := [ptr (b_source x)]; c_out := ptr (array_of (snd x)) |}).
  rewrite (all_some_map _ bc).
  2:{ intros x X. destruct (P x X) as (_ & D & S). unfold call_broadcast, bc, b_source. rewrite conv_array, D, G1, G2, S.
      destruct (snd (fst x)); now rewrite ?conv_array. }
  rewrite (agree_ok T n).
  2:{ destruct l; [now destruct root|discriminate]. }
  2:{ intros c C. apply in_map_iff in C as (x & <- & _). now split. }
  rewrite combine_map. unfold gloo_broadcast. rewrite nth_error_map, R0. cbn [option_map].
  eexists. split; [reflexivity|]. split; [unfold b_recvs; now rewrite !map_length|].
  intros r m a m' E1 E2. unfold b_recvs in E1. rewrite nth_error_map in E1, E2. rewrite nth_error_map in E2.
  destruct (nth_error l r) as [x|] eqn:R; [|discriminate]. cbn [option_map] in *. injection E1 as <- <-. injection E2 as <-.
  destruct (P x (nth_error_In _ _ R)) as (C & D & S). unfold write, input. cbn [fst snd bc c_in c_out hd]. split.
  - intros k K. unfold kth at 1. rewrite C by lia. rewrite D, <- E, load_store by (rewrite load_len; nia).
    rewrite load_part by nia. unfold kth. rewrite C0 by lia. now rewrite D0, E.
  - intros addr A. apply store_outside. rewrite load_len, E. now rewrite D in A.
Qed.

(** *** Scatter *)
Definition s_recvs (l : list (mem * list data * data)) : list (mem * ndarray) := map (fun x => (fst (fst x), array_of (snd x))) l.
(** Every member has room for [k] elements; the root sends [k] elements to each; the other members, whose data is
    not used, pass lists of the same total size, as in the project's tests. *)
Definition scatter_proper (d : dtype) (k root : nat) (l : list (mem * list data * data)) : Prop :=
  (root < length l)%nat /\
  forall r x, nth_error l r = Some x ->
    contiguous (array_of (snd x)) /\ dt (array_of (snd x)) = d /\ size (array_of (snd x)) = k /\
    list_sum (map (fun s => size (array_of s)) (snd (fst x))) = (length l * k)%nat /\
    (r = root -> length (snd (fst x)) = length l /\
      forall s, In s (snd (fst x)) -> contiguous (array_of s) /\ dt (array_of s) = d /\ size (array_of s) = k).
(** What the root sends to member [r] *)
Definition to_member (x0 : mem * list data * data) (r : nat) : ndarray := nth r (map array_of (snd (fst x0))) {| ptr := 0; shape := []; strides := []; dt := UInt8 |}.
Definition claim_scatter : Prop := forall d T k root l x0, machine_type d T -> scatter_proper d k root l -> nth_error l root = Some x0 ->
  exists ms, scatter root l = Some ms /\ delivers (s_recvs l) ms (fun _ => k) (fun r i => kth (fst (fst x0)) (to_member x0 r) i).

Lemma scatter_run d T k root l x0 : machine_type d T -> scatter_proper d k root l -> nth_error l root = Some x0 ->
  exists ms, scatter root l = Some ms /\ length ms = length l /\
    forall r x m', nth_error l r = Some x -> nth_error ms r = Some m' ->
      m' = store (fst (fst x)) (ptr (array_of (snd x))) (load (fst (fst x0)) (ptr (to_member x0 r)) (length l * k * sizeof T)).
Proof.
  intros M (RL & P) R0. destruct (mapped d T M) as (gt & G1 & G2 & E). unfold scatter, collective.
  set (bc := fun x : mem * list data * data => {| c_type := T; c_size := length l * k; c_in := map ptr (map array_of (snd (fst x))); c_out := ptr (array_of (snd x)) |}).
  rewrite (all_some_map _ bc).
  2:{ intros x X. apply In_nth_error in X as (r & X). destruct (P r x X) as (_ & D & _ & S & _). unfold call_scatter, bc.
      rewrite conv_array, D, G1, G2. f_equal.
      assert (Q : map convert_data_to_np_array (snd (fst x)) = map array_of (snd (fst x))) by (apply map_ext; intros; apply conv_array).
      rewrite Q, <- S, map_map. reflexivity. }
  rewrite (agree_ok T (length l * k)).
  2:{ destruct l; [now destruct root|discriminate]. }
  2:{ intros c C. apply in_map_iff in C as (x & <- & _). now split. }
  rewrite combine_map. unfold gloo_scatter. rewrite nth_error_map, R0. cbn [option_map bc c_in]. rewrite !map_length.
  destruct (P root x0 R0) as (_ & _ & _ & _ & Q). destruct (Q eq_refl) as (L0 & _). rewrite L0, Nat.eqb_refl.
  eexists. split; [reflexivity|]. split; [now rewrite map_length, seq_length|].
  intros r x m' X E2. assert (r < length l)%nat by (apply nth_error_Some; congruence).
  rewrite nth_error_map, seq_nth_error in E2 by assumption. cbn [option_map] in E2. rewrite nth_error_map, X in E2. cbn [option_map] in E2.
  injection E2 as <-. unfold write. cbn [fst snd bc c_out]. f_equal. f_equal. unfold to_member.
  rewrite (nth_indep _ 0 (ptr {| ptr := 0; shape := []; strides := []; dt := UInt8 |})) by (rewrite !map_length; lia). now rewrite map_nth.
Qed.
(** Every member's buffer receives its elements ... *)
Theorem C59_scatter_content_partial d T k root l x0 : machine_type d T -> scatter_proper d k root l -> nth_error l root = Some x0 ->
  exists ms, scatter root l = Some ms /\ length ms = length l /\
    forall r x m' i, nth_error l r = Some x -> nth_error ms r = Some m' -> (i < k)%nat ->
      kth m' (array_of (snd x)) i = kth (fst (fst x0)) (to_member x0 r) i.
Proof.
  intros M P R0. destruct (scatter_run d T k root l x0 M P R0) as (ms & S & L & H). exists ms. split; [exact S|]. split; [exact L|].
  intros r x m' i X E K. rewrite (H r x m' X E). destruct P as (RL & P). destruct (P r x X) as (C & D & Sz & _ & _).
  destruct (mapped d T M) as (_ & _ & _ & Es). assert (RN : (r < length l)%nat) by (apply nth_error_Some; congruence).
  assert (F : (i + 1 <= length l * k)%nat) by nia. assert (F' : (i * sizeof T + sizeof T <= length l * k * sizeof T)%nat) by nia.
  unfold kth at 1. rewrite C by lia. rewrite D, <- Es. rewrite load_store by (rewrite load_len; exact F'). rewrite load_part by exact F'.
  destruct (P root x0 R0) as (_ & _ & _ & _ & Q). destruct (Q eq_refl) as (L0 & Q').
  assert (I : In (to_member x0 r) (map array_of (snd (fst x0)))) by (apply nth_In; rewrite map_length; lia).
  apply in_map_iff in I as (s & Es' & I). destruct (Q' s I) as (Cs & Ds & Ss). rewrite Es' in *. unfold kth. rewrite Cs by lia. now rewrite Ds, Es.
Qed.
(** ... but then the writing goes on: as many bytes again for every further member of the group are written behind each
    member's buffer, read from behind the root's arrays. *)
Theorem C59_scatter_overflow_refuted d T k root l x0 : machine_type d T -> scatter_proper d k root l -> nth_error l root = Some x0 ->
  exists ms, scatter root l = Some ms /\
    forall r x m' i, nth_error l r = Some x -> nth_error ms r = Some m' -> (k * itemsize d <= i < length l * (k * itemsize d))%nat ->
      m' (ptr (array_of (snd x)) + Z.of_nat i) = fst (fst x0) (ptr (to_member x0 r) + Z.of_nat i).
Proof.
  intros M P R0. destruct (scatter_run d T k root l x0 M P R0) as (ms & S & L & H). exists ms. split; [exact S|].
  intros r x m' i X E K. rewrite (H r x m' X E). destruct (mapped d T M) as (_ & _ & _ & Es). rewrite Es.
  set (bs := load _ _ _). assert (LB : length bs = (length l * k * itemsize d)%nat) by apply load_len.
  pose proof (load_store (fst (fst x)) (ptr (array_of (snd x))) bs i 1) as LS. cbn [load seq map] in LS.
  rewrite Z.add_0_r in LS. assert (B : (i + 1 <= length bs)%nat) by nia. specialize (LS B).
  assert (V : forall y, [y] = firstn 1 (skipn i bs) -> y = nth i bs 0).
  { intros y Y. rewrite <- (Nat.add_0_r i). rewrite <- (nth_part bs i 0 1) by lia. now rewrite <- Y. }
  rewrite (V _ LS). unfold bs. apply load_nth. nia.
Qed.

(** *** What goes wrong *)
Lemma line_contiguous p n d : contiguous {| ptr := p; shape := [n]; strides := [Z.of_nat (itemsize d)]; dt := d |}.
Proof. intros k K. cbn [shape strides dt coords fold_right place]. rewrite Nat.div_1_r. lia. Qed.
(** Arrays as numpy creates them are contiguous, whatever their shape. *)
Fixpoint row_major (isz : nat) (sh : list nat) : list Z :=
  match sh with [] => [] | _ :: sh => Z.of_nat (fold_right Nat.mul 1%nat sh * isz) :: row_major isz sh end.
Lemma row_major_contiguous p sh d : contiguous {| ptr := p; shape := sh; strides := row_major (itemsize d) sh; dt := d |}.
Proof.
  intros k K. unfold size in K. cbn [shape strides dt] in *. revert k K. generalize (itemsize d). intros isz.
  induction sh as [|n sh IH]; intros k K; cbn [coords row_major place fold_right] in *; [lia|].
  set (q := fold_right Nat.mul 1%nat sh) in *. assert (Q : q <> 0%nat) by (intros Q; rewrite Q in K; lia).
  rewrite IH by now apply Nat.mod_upper_bound. pose proof (Nat.div_mod k q Q). nia.
Qed.
Definition line (d : dtype) (p : Z) (n : nat) : data := Array {| ptr := p; shape := [n]; strides := [Z.of_nat (itemsize d)]; dt := d |}.
Module Demo.
  (** The project's own test: two members, arrays of two int8 each. *)
  Definition m0 : mem := fun a => a.
  Definition m1 : mem := fun _ => 0.
  Definition two : list (mem * list data * data) :=
    [(m0, [line Int8 10 2; line Int8 20 2], line Int8 30 2); (m1, [line Int8 10 2; line Int8 20 2], line Int8 30 2)].
  Example two_proper : scatter_proper Int8 2 0 two.
  Proof.
    split; [cbn; lia|]. intros [|[|r]] x X; [injection X as <-|injection X as <-|now destruct r].
    - split; [apply line_contiguous|]. do 3 (split; [reflexivity|]). intros _. split; [reflexivity|].
      intros s [<-|[<-|[]]]; (split; [apply line_contiguous|split; reflexivity]).
    - split; [apply line_contiguous|]. do 3 (split; [reflexivity|]). discriminate.
  Qed.
  (** Bytes 32 and 33 are behind the buffer at 30. *)
  Example overflow : option_map (map (fun m => load m 30 5)) (scatter 0 two) = Some [[10; 11; 12; 13; 34]; [20; 21; 22; 23; 0]].
  Proof. reflexivity. Qed.
  (** Numbers of one byte, added up *)
  Definition add (T : ctype) (f : function) (xs : list (list Z)) : list Z :=
    map (fun i => fold_right Z.add 0 (map (fun x => nth i x 0) xs)) (seq 0 (sizeof T)).
  Example add_typed : typed add.
  Proof. intros T f xs. unfold add. now rewrite map_length, seq_length. Qed.
  Definition three : list member :=
    [{| memory := m0; send_data := line Int8 10 3; recv_data := line Int8 30 9 |};
     {| memory := m0; send_data := line Int8 20 3; recv_data := line Int8 40 9 |};
     {| memory := m1; send_data := Array {| ptr := 7; shape := [1%nat; 3%nat]; strides := [3; 1]; dt := Int8 |}; recv_data := line Int8 50 9 |}].
  Example three_proper : proper Int8 3 (fun _ => 9%nat) three.
  Proof.
    split; [discriminate|]. intros [|[|[|r]]] x X; [injection X as <-|injection X as <-|injection X as <-|now destruct r];
      (split; [try apply line_contiguous|split; [reflexivity|split; [reflexivity|split; [apply line_contiguous|split; [reflexivity|cbn; lia]]]]]).
    intros [|[|[|k]]] K; try reflexivity. unfold size in K. cbn in K. lia.
  Qed.
  Example allreduced : option_map (map (fun m => m 41)) (allreduce add SUM three) = Some [41; 32; 0].
  Proof. reflexivity. Qed.
  Example gathered : option_map (map (fun m => load m 40 9)) (allgather three)
    = Some [[40; 41; 42; 43; 44; 45; 46; 47; 48]; [10; 11; 12; 20; 21; 22; 0; 0; 0]; [0; 0; 0; 0; 0; 0; 0; 0; 0]].
  Proof. reflexivity. Qed.
  Example exchanged : option_map (map (fun m => m 32)) (alltoall three) = Some [0; 32; 0].
  Proof. reflexivity. Qed.
  (** Every second of four numbers; a column to receive into *)
  Definition strided (p : Z) : data := Array {| ptr := p; shape := [2%nat]; strides := [2]; dt := Int8 |}.
End Demo.

Theorem C59_scatter_refuted : ~ claim_scatter.
Proof.
  intros C. destruct (C Int8 int8_t 2%nat 0%nat Demo.two _ t_i8 Demo.two_proper eq_refl) as (ms & E & (_ & H)).
  assert (X : nth_error ms 0 = option_map (fun l => hd Demo.m0 l) (scatter 0 Demo.two)) by now rewrite E; destruct ms.
  assert (E2 : exists m', nth_error ms 0 = Some m' /\ m' 32 = 12).
  { injection E as <-. eexists. split; reflexivity. }
  destruct E2 as (m' & E2 & V). destruct (H 0%nat _ _ m' eq_refl E2) as (_ & B). specialize (B 32). cbn in B. rewrite V in B. unfold Demo.m0 in B.
  assert (12 = 32) by (apply B; right; lia). lia.
Qed.
(** A member other than the root that passes no list - it has nothing to send - makes the operation fail. *)
Theorem C59_scatter_empty_list_refuted : scatter 0 [(Demo.m0, [line Int8 10 2; line Int8 20 2], line Int8 30 2); (Demo.m1, [], line Int8 30 2)] = None.
Proof. reflexivity. Qed.
(** Arrays that are not contiguous, such as x[::2] or x.T: their memory is sent and written as if they were. *)
Theorem C59_strided_send_refuted : ~ (forall arith d T o f n l, typed arith -> machine_type d T -> operator o f -> l <> [] ->
  (forall x, In x l -> dt (sent x) = d /\ size (sent x) = n /\ contiguous (received x) /\ dt (received x) = d /\ size (received x) = n) ->
  exists ms, allreduce arith o l = Some ms /\ delivers (recvs l) ms (fun _ => n) (fun _ k => arith T f (map (fun r => sent_by l r k) (ranks l)))).
Proof.
  intros C. set (x := {| memory := Demo.m0; send_data := Demo.strided 10; recv_data := line Int8 30 2 |}).
  destruct (C Demo.add Int8 int8_t SUM f_sum 2%nat [x] Demo.add_typed t_i8 o_sum) as (ms & E & (_ & H)); [discriminate| |].
  - intros y [<-|[]]. split; [reflexivity|]. split; [reflexivity|]. split; [apply line_contiguous|split; reflexivity].
  - assert (E2 : exists m', nth_error ms 0 = Some m' /\ m' 31 = 11) by (injection E as <-; eexists; split; reflexivity).
    destruct E2 as (m' & E2 & V). destruct (H 0%nat _ _ m' eq_refl E2) as (A & _). specialize (A 1%nat (Nat.lt_succ_diag_r 1)).
    cbn in A. rewrite V in A. discriminate.
Qed.
Theorem C59_strided_recv_refuted : ~ (forall arith d T o f n l, typed arith -> machine_type d T -> operator o f -> l <> [] ->
  (forall x, In x l -> contiguous (sent x) /\ dt (sent x) = d /\ size (sent x) = n /\ dt (received x) = d /\ size (received x) = n) ->
  exists ms, allreduce arith o l = Some ms /\
    forall r x m', nth_error l r = Some x -> nth_error ms r = Some m' ->
      forall k, (k < n)%nat -> kth m' (received x) k = arith T f (map (fun r => sent_by l r k) (ranks l))).
Proof.
  intros C. set (x := {| memory := Demo.m0; send_data := line Int8 10 2; recv_data := Demo.strided 30 |}).
  destruct (C Demo.add Int8 int8_t SUM f_sum 2%nat [x] Demo.add_typed t_i8 o_sum) as (ms & E & H); [discriminate| |].
  - intros y [<-|[]]. split; [apply line_contiguous|repeat split].
  - assert (E2 : exists m', nth_error ms 0 = Some m' /\ m' 32 = 32) by (injection E as <-; eexists; split; reflexivity).
    destruct E2 as (m' & E2 & V). specialize (H 0%nat x m' eq_refl E2 1%nat (Nat.lt_succ_diag_r 1)).
    cbn in H. rewrite V in H. discriminate.
Qed.
(** A receive buffer that is too small, or of a smaller type, is not refused: memory behind it is overwritten. *)
Theorem C59_small_buffer_refuted : ~ (forall l, (forall x, In x l -> contiguous (sent x) /\ contiguous (received x)) ->
  forall ms r x m', allgather l = Some ms -> nth_error l r = Some x -> nth_error ms r = Some m' ->
    forall a, a < ptr (received x) \/ ptr (received x) + Z.of_nat (size (received x) * itemsize (dt (received x))) <= a -> m' a = memory x a).
Proof.
  intros C. set (x := {| memory := Demo.m0; send_data := line Int8 10 2; recv_data := line Int8 30 2 |}).
  assert (P : forall y, In y [x; x] -> contiguous (sent y) /\ contiguous (received y)) by (intros y [<-|[<-|[]]]; split; apply line_contiguous).
  specialize (C [x; x] P _ 0%nat x _ eq_refl eq_refl eq_refl 32). cbn in C. assert (10 = 32) by (apply C; lia). lia.
Qed.
(** The bitwise operators fail, for integers too. *)
Theorem C59_bitwise_refuted : forall arith o l, o = BAND \/ o = BOR \/ o = BXOR -> allreduce arith o l = None.
Proof. intros arith o l [->|[->| ->]]; reflexivity. Qed.

(** Data of any other type (16-bit integers, booleans, complex numbers) fails in every operation: it is never
    moved or combined as if it were of one of these types. *)
Lemma collective_none {X} (g : X -> option call) (l : list X) x mems k : In x l -> g x = None -> collective (map g l) mems k = None.
Proof.
  intros I G. unfold collective. replace (all_some (map g l)) with (@None (list call)); [reflexivity|]. symmetry.
  induction l as [|y l IH]; [easy|]. cbn [map all_some]. destruct I as [->|I]; [now rewrite G|]. rewrite (IH I). now destruct (g y).
Qed.
Lemma unmapped d : (forall T, ~ machine_type d T) -> TypeMappingGloo d = None.
Proof. intros N. destruct d; try reflexivity; exfalso; eapply N; constructor. Qed.
Theorem C59_other_types_fail d arith o root elems : (forall T, ~ machine_type d T) ->
  (forall l x, In x l -> dt (sent x) = d ->
     allreduce arith o l = None /\ reduce arith o root l = None /\ gather root l = None /\ allgather l = None /\
     alltoall l = None /\ reduce_scatter arith o elems l = None) /\
  (forall l x, In x l -> dt (array_of (snd x)) = d -> broadcast root l = None) /\
  (forall l x, In x l -> dt (array_of (snd x)) = d -> scatter root l = None).
Proof.
  intros N. pose proof (unmapped d N) as U. split; [|split]; intros l x I D.
  - assert (C : call_by_send (send_data x) (recv_data x) = None)
      by (unfold call_by_send; rewrite conv_array; change (array_of (send_data x)) with (sent x); now rewrite D, U).
    assert (B : forall g, by_send l g = None) by (intros g; unfold by_send; now apply (collective_none _ l x)).
    unfold allreduce, reduce, gather, allgather, alltoall, reduce_scatter, with_function. destruct (to_function (op_value o)); repeat split; first [reflexivity | apply B].
  - unfold broadcast. apply (collective_none _ l x); [exact I|]. unfold call_broadcast. now rewrite conv_array, D, U.
  - unfold scatter. apply (collective_none _ l x); [exact I|]. unfold call_scatter. now rewrite conv_array, D, U.
Qed.
Example other_types : forall T, ~ machine_type Int16 T. Proof. intros T H. inversion H. Qed.

Print Assumptions C59_allreduce.
Print Assumptions C59_reduce.
Print Assumptions C59_gather.
Print Assumptions C59_allgather.
Print Assumptions C59_alltoall.
Print Assumptions C59_reduce_scatter.
Print Assumptions C59_broadcast.
Print Assumptions C59_scatter_content_partial.
Print Assumptions C59_scatter_overflow_refuted.
Print Assumptions C59_scatter_refuted.
Print Assumptions C59_scatter_empty_list_refuted.
Print Assumptions C59_strided_send_refuted.
Print Assumptions C59_strided_recv_refuted.
Print Assumptions C59_small_buffer_refuted.
Print Assumptions C59_bitwise_refuted.
Print Assumptions C59_other_types_fail.
