(** * C52, C53: tensors, GPU arrays and sparse matrices keep their content over the wire

    How to read.  [element t idx] is what [t[idx]] holds (its bytes), read from the tensor's
    storage at (offset + sum of index times stride) elements.  [serial_cpu], [serial_cuda] return the
    header and the buffer that is sent (None: an exception), [deserial_...] build the tensor on the other side.
    Tensors are arbitrary: any storage, offset, sizes (with zeros and ones) and strides for
    which every element lies inside the storage. *)
From Coq Require Import List ZArith Lia Bool.
From Verif Require Import NdModel NdProps TorchModel.
Import ListNotations.
Open Scope Z_scope.

(** ** Specification *)
(** Index times stride, added up. *)
Fixpoint place (idx : list nat) (st : list Z) : Z :=
  match idx, st with i :: idx, s :: st => Z.of_nat i * s + place idx st | _, _ => 0 end.
Definition in_range (idx sh : list nat) : Prop := Forall2 lt idx sh.
Definition element (t : tensor) (idx : list nat) : list Z :=
  let k := Z.to_nat (offset t + place idx (stride t)) in
  firstn (esize t) (skipn (k * esize t) (store t)).
Definition valid (t : tensor) : Prop :=
  length (stride t) = length (size t) /\ (0 < esize t)%nat /\ Forall (fun s => 0 <= s) (stride t) /\ 0 <= offset t /\
  forall idx, in_range idx (size t) -> (offset t + place idx (stride t) + 1) * Z.of_nat (esize t) <= Z.of_nat (length (store t)).
Definition same_tensor (a b : tensor) : Prop :=
  size a = size b /\ esize a = esize b /\ in_numpy a = in_numpy b /\ grad a = grad b /\
  forall idx, in_range idx (size a) -> element a idx = element b idx.

(** ** Proofs *)
Lemma place_dot idx st : place idx st = dot idx st.
Proof. reflexivity. Qed.
Lemma numel_product sh : numel sh = product sh.
Proof. unfold numel. induction sh as [|d sh IH]; cbn [product fold_right]; [reflexivity|]. now rewrite IH. Qed.
Lemma buffer_bytes bs k n : (k + n <= length bs)%nat -> bytes (buffer bs) (Z.of_nat k) n = firstn n (skipn k bs).
Proof.
  intros L. apply bytes_ext; [rewrite firstn_length, skipn_length; lia|]. intros j J. unfold buffer.
  rewrite <- (firstn_skipn k bs) at 1. rewrite app_nth2 by (rewrite firstn_length; lia).
  rewrite <- (firstn_skipn n (skipn k bs)) at 1. rewrite app_nth1 by (rewrite !firstn_length, skipn_length; lia).
  f_equal. rewrite firstn_length. lia.
Qed.
Lemma dot_scale e idx st : dot idx (map (fun s => s * e) st) = dot idx st * e.
Proof. revert st. induction idx as [|i idx IH]; intros [|s st]; cbn [dot map]; try lia. rewrite IH. lia. Qed.
Lemma dot_nonneg idx st : Forall (fun s => 0 <= s) st -> 0 <= dot idx st.
Proof. intros F. revert idx. induction F as [|s st P F IH]; intros [|i idx]; cbn [dot]; try lia. specialize (IH idx). nia. Qed.
Lemma element_item t idx : valid t -> in_range idx (size t) -> element t idx = item (view_of t) idx.
Proof.
  intros (L & E & N & O & B) I. specialize (B _ I). unfold element, item, view_of. cbn [mem base strides itemsize].
  rewrite dot_scale. rewrite place_dot in *. pose proof (dot_nonneg idx _ N).
  replace (offset t * Z.of_nat (esize t) + dot idx (stride t) * Z.of_nat (esize t))
    with (Z.of_nat (Z.to_nat (offset t + dot idx (stride t)) * esize t)) by nia.
  symmetry. apply buffer_bytes. nia.
Qed.
(** A tensor whose elements follow each other. *)
Definition packed (t : tensor) : Prop := forall idx, in_range idx (size t) -> dot idx (stride t) = Z.of_nat (cpos idx (size t)).
Lemma contiguous_packed t : valid t -> is_contiguous t = true -> packed t.
Proof.
  intros (L & _) C idx I. unfold is_contiguous in C. apply orb_true_iff in C as [Z|C]; [exfalso; exact (no_zero_index _ _ Z I)|].
  rewrite (c_go_dot 1 _ _ _ L I C). lia.
Qed.
Lemma fresh_dot sh idx : in_range idx sh -> dot idx (fst (fresh_strides 1 sh)) = Z.of_nat (cpos idx sh).
Proof.
  intros I. destruct (has_zero sh) eqn:Z; [exfalso; exact (no_zero_index _ _ Z I)|].
  rewrite (c_go_dot 1 sh _ idx (fresh_len _ _) I (fresh_c_go _ _ Z)). lia.
Qed.
Lemma fresh_nonneg e sh : 0 <= e -> Forall (fun s => 0 <= s) (fst (fresh_strides e sh)) /\ 0 <= snd (fresh_strides e sh).
Proof.
  intros P. induction sh as [|d sh IH]; cbn [fresh_strides]; [split; [constructor|exact P]|].
  destruct (fresh_strides e sh) as [st sd]. cbn [fst snd] in *. destruct IH as [F S]. split; [constructor; auto|].
  destruct (Nat.eqb d 0); [exact S|nia].
Qed.
(** A fresh tensor over the bytes of the elements in row-major order. *)
Lemma fresh_valid bs sh t : (0 < esize t)%nat -> length bs = (product sh * esize t)%nat -> valid (fresh bs sh t).
Proof.
  intros E L. unfold valid, fresh. cbn [size stride esize offset store].
  split; [apply fresh_len|]. split; [exact E|]. split; [apply fresh_nonneg; lia|]. split; [lia|].
  intros idx I. rewrite place_dot, fresh_dot by auto. pose proof (cpos_lt _ _ I). nia.
Qed.
Lemma fresh_element bs sh t idx : (0 < esize t)%nat -> length bs = (product sh * esize t)%nat -> in_range idx sh ->
  element (fresh bs sh t) idx = firstn (esize t) (skipn (cpos idx sh * esize t) bs).
Proof.
  intros E L I. unfold element, fresh. cbn [size stride esize offset store]. rewrite place_dot, fresh_dot by auto.
  do 3 f_equal. lia.
Qed.
Lemma flat_chunk {A} (f : A -> list Z) n (d : A) l k : (forall x, length (f x) = n) -> (k < length l)%nat ->
  firstn n (skipn (k * n) (flat_map f l)) = f (nth k l d).
Proof.
  intros L. revert k. induction l as [|x l IH]; intros k K; cbn [length] in K; [lia|]. cbn [flat_map]. destruct k as [|k].
  - cbn [Nat.mul skipn nth]. rewrite firstn_app, L. rewrite Nat.sub_diag. cbn [firstn]. rewrite app_nil_r. rewrite <- (L x) at 1. apply firstn_all.
  - cbn [nth]. rewrite <- IH by lia. replace (S k * n)%nat with (n + k * n)%nat by lia. rewrite <- (L x) at 2.
    f_equal. rewrite skipn_app. rewrite skipn_all2 by lia. cbn [app]. f_equal. lia.
Qed.
Lemma contiguous_same t : valid t -> valid (contiguous t) /\ packed (contiguous t) /\ same_tensor (contiguous t) t.
Proof.
  intros V. pose proof V as (L & E & N & O & B).
  assert (Len : length (ravel (view_of t) OrderC) = (product (size t) * esize t)%nat) by apply ravel_len.
  split; [now apply fresh_valid|]. split.
  - intros idx I. unfold contiguous, fresh in *. cbn [size stride] in *. now apply fresh_dot.
  - unfold same_tensor. unfold contiguous. cbn [fresh size esize in_numpy grad]. repeat split.
    intros idx I. cbn [fresh size] in I. rewrite fresh_element by auto. rewrite element_item by auto.
    unfold ravel. change (esize t) with (itemsize (view_of t)) at 1 2. rewrite (flat_chunk _ _ []).
    + f_equal. now apply c_indexes_nth.
    + intros x. apply item_len.
    + rewrite c_indexes_len. now apply cpos_lt.
Qed.
Lemma same_trans a b c : same_tensor a b -> same_tensor b c -> same_tensor a c.
Proof.
  intros (A1 & A2 & A3 & A4 & A5) (B1 & B2 & B3 & B4 & B5). repeat split; try congruence.
  intros idx I. rewrite A5 by auto. apply B5. congruence.
Qed.
Lemma data_len t : length (data t) = (product (size t) * esize t)%nat.
Proof. unfold data. rewrite bytes_len, numel_product. reflexivity. Qed.
Lemma sub_bytes m a n k e : (k + e <= n)%nat -> firstn e (skipn k (bytes m a n)) = bytes m (a + Z.of_nat k) e.
Proof.
  intros L. symmetry. apply bytes_ext; [rewrite firstn_length, skipn_length, bytes_len; lia|]. intros j J.
  assert (X : nth j (firstn e (skipn k (bytes m a n))) 0 = nth (k + j) (bytes m a n) 0).
  { rewrite <- (firstn_skipn k (bytes m a n)) at 2. rewrite app_nth2 by (rewrite firstn_length, bytes_len; lia).
    rewrite firstn_length, bytes_len, Nat.min_l by lia. replace (k + j - k)%nat with j by lia.
    rewrite <- (firstn_skipn e (skipn k (bytes m a n))) at 2. rewrite app_nth1; [reflexivity|].
    rewrite firstn_length, skipn_length, bytes_len. lia. }
  rewrite X, bytes_nth by lia. f_equal. lia.
Qed.
Lemma data_element t idx : valid t -> packed t -> in_range idx (size t) ->
  firstn (esize t) (skipn (cpos idx (size t) * esize t) (data t)) = element t idx.
Proof.
  intros V P I. rewrite element_item by auto. unfold item, view_of, data. cbn [mem base strides itemsize].
  rewrite dot_scale, (P _ I). rewrite sub_bytes.
  - f_equal. nia.
  - rewrite numel_product. pose proof (cpos_lt _ _ I). nia.
Qed.
(** Reading the packed bytes with any strides that address the elements in order. *)
Lemma read_packed t h : valid t -> packed t -> th_size h = size t -> th_esize h = esize t -> packed {| store := data t; offset := 0; size := th_size h; stride := th_stride h; esize := th_esize h; in_numpy := th_in_numpy h; grad := th_grad h |} ->
  forall idx, in_range idx (size t) ->
  element {| store := data t; offset := 0; size := th_size h; stride := th_stride h; esize := th_esize h; in_numpy := th_in_numpy h; grad := th_grad h |} idx = element t idx.
Proof.
  intros V P S E P' idx I. rewrite <- (data_element t idx V P I). unfold element. cbn [store offset stride esize]. rewrite E.
  rewrite place_dot. specialize (P' idx). cbn [size stride] in P'. rewrite P' by (rewrite S; exact I). rewrite S. do 3 f_equal. lia.
Qed.
Definition packed_version (t : tensor) : tensor := if is_contiguous t then t else contiguous t.
Lemma packed_version_ok t : valid t -> valid (packed_version t) /\ packed (packed_version t) /\ same_tensor (packed_version t) t.
Proof.
  intros V. unfold packed_version. destruct (is_contiguous t) eqn:C.
  - split; [exact V|]. split; [now apply contiguous_packed|]. repeat split.
  - now apply contiguous_same.
Qed.
(** The last index of a tensor with elements. *)
Lemma last_index sh : has_zero sh = false -> in_range (map pred sh) sh.
Proof.
  unfold has_zero. induction sh as [|d sh IH]; cbn [map existsb]; intros E; [constructor|].
  apply orb_false_iff in E as [E1 E2]. apply Nat.eqb_neq in E1. constructor; [lia|]. now apply IH.
Qed.
Lemma upper_last sh st : length st = length sh -> Forall (fun s => 0 <= s) st -> has_zero sh = false -> dot (map pred sh) st = upper sh st.
Proof.
  revert st. unfold has_zero. induction sh as [|d sh IH]; intros [|s st] L F E; cbn in L; try discriminate; [reflexivity|].
  cbn [map dot upper existsb] in *. apply orb_false_iff in E as [E1 E2]. apply Nat.eqb_neq in E1. inversion F; subst.
  rewrite IH by (auto; lia). rewrite Z.max_r by (apply Z.mul_nonneg_nonneg; lia). replace (Z.of_nat (pred d)) with (Z.of_nat d - 1) by lia. lia.
Qed.
Lemma needed_ok t : valid t -> offset t = 0 -> (needed (size t) (stride t) * Z.of_nat (esize t) <=? Z.of_nat (length (store t))) = true.
Proof.
  intros (L & E & N & _ & B) O. apply Z.leb_le. unfold needed. destruct (has_zero (size t)) eqn:Z; [lia|].
  specialize (B _ (last_index _ Z)). rewrite place_dot, upper_last, O in B by auto. lia.
Qed.
Lemma needed_packed t : valid t -> packed t -> needed (size t) (stride t) * Z.of_nat (esize t) <= Z.of_nat (length (data t)).
Proof.
  intros (L & E & N & _ & B) P. unfold needed. destruct (has_zero (size t)) eqn:Z; [lia|]. rewrite data_len.
  pose proof (P _ (last_index _ Z)) as Q. rewrite upper_last in Q by auto. rewrite Q. pose proof (cpos_lt _ _ (last_index _ Z)). nia.
Qed.

(** ** Theorems *)
(** *** Tensors on the CPU *)
(** What is sent comes back. *)
Theorem C52_cpu : forall t h bs, valid t -> serial_cpu t = Some (h, bs) ->
  exists t', deserial_cpu h bs = Some t' /\ same_tensor t' t.
Proof.
  intros t h bs V S. unfold serial_cpu in S. fold (packed_version t) in S.
  destruct (packed_version_ok t V) as (V' & P & Sm). set (p := packed_version t) in *. clearbody p.
  assert (Out : exists f, h = header_of p f /\ bs = data p).
  { destruct (in_numpy p && negb (grad p)); [injection S as <- <-; eauto|]. destruct (Nat.eqb (esize p) 1); [injection S as <- <-; eauto|].
    destruct (rev (stride p)) as [|s ?]; [discriminate|]. destruct (s =? 1); [injection S as <- <-; eauto|discriminate]. }
  destruct Out as (f & -> & ->). clear S.
  assert (G : forall st, packed {| store := data p; offset := 0; size := size p; stride := st; esize := esize p; in_numpy := in_numpy p; grad := grad p |} ->
    same_tensor {| store := data p; offset := 0; size := size p; stride := st; esize := esize p; in_numpy := in_numpy p; grad := grad p |} t).
  { intros st P'. eapply same_trans; [|exact Sm]. repeat split. intros idx I. cbn [size] in I.
    exact (read_packed p {| th_size := size p; th_stride := st; th_esize := esize p; th_in_numpy := in_numpy p; th_grad := grad p; th_format := f |} V' P eq_refl eq_refl P' idx I). }
  unfold deserial_cpu. destruct f; cbn [th_format header_of].
  - cbn [header_of th_size th_stride th_esize th_in_numpy th_grad]. rewrite (proj2 (Nat.eqb_eq (length (data p)) (numel (size p) * esize p))) by (rewrite data_len; f_equal; symmetry; apply numel_product). eexists. split; [reflexivity|]. apply G.
    intros idx I. cbn [size stride] in *. now apply fresh_dot.
  - unfold set_storage. cbn [header_of th_size th_stride th_esize th_in_numpy th_grad].
    rewrite (proj2 (Z.leb_le _ _) (needed_packed p V' P)). eexists. split; [reflexivity|]. apply G. exact P.
Qed.
(** When sending fails: exactly for dtypes unknown to numpy or with gradients, of more than one byte per
    element, and either no dimension or (in the tensor or its contiguous copy) a last stride other than 1. *)
Theorem C52_cpu_accepted_partial : forall t, valid t ->
  (in_numpy t = true /\ grad t = false) \/ esize t = 1%nat \/ (exists l, stride (if is_contiguous t then t else contiguous t) = l ++ [1]) <->
  serial_cpu t <> None.
Proof.
  intros t V. unfold serial_cpu. fold (packed_version t).
  destruct (packed_version_ok t V) as (_ & _ & (_ & E & N & G & _)). rewrite <- E, <- N, <- G. generalize (packed_version t). clear. intros t.
  assert (B : in_numpy t = true /\ grad t = false <-> in_numpy t && negb (grad t) = true) by (rewrite andb_true_iff, negb_true_iff; tauto).
  rewrite B. destruct (in_numpy t && negb (grad t)); [split; [discriminate|auto]|].
  destruct (Nat.eqb_spec (esize t) 1) as [Es|NE]; [split; [discriminate|auto]|].
  destruct (rev (stride t)) as [|s r] eqn:R; apply (f_equal (@rev Z)) in R; rewrite rev_involutive in R; cbn [rev] in R; rewrite R.
  - split; [|congruence]. intros [H|[H|[l H]]]; try congruence. destruct l; discriminate.
  - destruct (Z.eqb_spec s 1) as [->|NS]; [split; [discriminate|]; intros _; right; right; eauto|].
    split; [|congruence]. intros [H|[H|[l H]]]; try congruence. apply app_inj_tail in H as [_ H]. congruence.
Qed.
(** In full every tensor would be accepted: refuted by a single bfloat16 number, for instance a loss. *)
Definition loss : tensor := {| store := [63; 128]; offset := 0; size := []; stride := []; esize := 2; in_numpy := false; grad := false |}.
Theorem C52_cpu_accepted_refuted : valid loss /\ serial_cpu loss = None.
Proof.
  split; [|reflexivity]. unfold valid, loss. cbn [stride size esize offset store length]. split; [reflexivity|]. split; [lia|].
  split; [constructor|]. split; [lia|]. intros idx I. inversion I. cbn. lia.
Qed.

(** *** Tensors on CUDA *)
Definition claim_cuda : Prop := forall t, valid t ->
  exists t', deserial_cuda (fst (serial_cuda t)) (snd (serial_cuda t)) = Some t' /\ same_tensor t' t.
(** Proved for tensors that start at the beginning of their storage and for tensors that are copied
    because their memory format is neither of the two. *)
Theorem C52_cuda_partial : forall t, valid t -> offset t = 0 \/ (is_contiguous t = false /\ is_channels_last t = false) ->
  exists t', deserial_cuda (fst (serial_cuda t)) (snd (serial_cuda t)) = Some t' /\ same_tensor t' t.
Proof.
  intros t V H. unfold serial_cuda, deserial_cuda, set_storage.
  assert (X : exists p, (if is_contiguous t || is_channels_last t then t else contiguous t) = p /\ valid p /\ offset p = 0 /\ same_tensor p t).
  { destruct (is_contiguous t || is_channels_last t) eqn:C.
    - exists t. apply orb_true_iff in C. destruct H as [H|[H1 H2]]; [|destruct C; congruence]. split; [reflexivity|]. split; [exact V|]. split; [exact H|]. repeat split.
    - exists (contiguous t). destruct (contiguous_same t V) as (V' & _ & S). split; [reflexivity|]. split; [exact V'|]. split; [reflexivity|exact S]. }
  destruct X as (p & -> & V' & O & S). cbn [fst snd header_of th_size th_stride th_esize th_in_numpy th_grad]. rewrite (needed_ok p V' O).
  eexists. split; [reflexivity|]. destruct p as [st o sz sr e np g]. cbn [offset] in O. subst o. exact S.
Qed.
(** A CUDA tensor in one of the two memory formats arrives in that format: with the same strides. *)
Theorem C52_cuda_format_kept : forall t t', valid t -> deserial_cuda (fst (serial_cuda t)) (snd (serial_cuda t)) = Some t' ->
  (forall n c h w, size t = [n; c; h; w] -> (0 < n * c * h * w)%nat ->
     stride t = [Z.of_nat (h * w * c); 1; Z.of_nat (w * c); Z.of_nat c] -> stride t' = stride t) /\
  (forall d1 d2, size t = [d1; d2] -> stride t = [Z.of_nat d2; 1] -> stride t' = stride t).
Proof.
  intros t t' V D.
  assert (K : is_contiguous t || is_channels_last t = true -> stride t' = stride t).
  { intros E. unfold serial_cuda, deserial_cuda, set_storage in D. rewrite E in D. cbn [fst snd header_of th_size th_stride] in D.
    destruct (_ <=? _) in D; [|discriminate]. injection D as <-. reflexivity. }
  split.
  - intros n c h w S P R. apply K. apply orb_true_iff. right. unfold is_channels_last. rewrite S, R. cbn [c_go].
    destruct (Nat.eqb_spec c 1) as [->|]; destruct (Nat.eqb_spec w 1) as [->|]; destruct (Nat.eqb_spec h 1) as [->|]; destruct (Nat.eqb_spec n 1) as [->|];
      cbn [fst]; rewrite ?andb_true_iff, ?Z.eqb_eq; repeat split; try reflexivity; lia.
  - intros d1 d2 S R. apply K. apply orb_true_iff. left. unfold is_contiguous. rewrite S, R. apply orb_true_iff. right. cbn [c_go].
    destruct (Nat.eqb_spec d1 1) as [->|]; destruct (Nat.eqb_spec d2 1) as [->|]; cbn [fst]; rewrite ?andb_true_iff, ?Z.eqb_eq; repeat split; try reflexivity; lia.
Qed.
(** Refuted: a slice such as x[2:] of a CUDA tensor is contiguous, its whole storage is sent, and its offset
    is forgotten: it arrives as the first elements of x. *)
Definition slice : tensor := {| store := [10; 20; 30; 40]; offset := 2; size := [2%nat]; stride := [1]; esize := 1; in_numpy := true; grad := false |}.
Theorem C52_cuda_refuted : ~ claim_cuda /\
  element slice [0%nat] = [30] /\
  exists t', deserial_cuda (fst (serial_cuda slice)) (snd (serial_cuda slice)) = Some t' /\ size t' = size slice /\ element t' [0%nat] = [10].
Proof.
  assert (V : valid slice).
  { unfold valid, slice. cbn [stride size esize offset store length]. split; [reflexivity|]. split; [lia|]. split; [repeat constructor; lia|].
    split; [lia|]. intros idx I. inversion I as [|i d r sh L F]; subst. inversion F; subst. cbn [place]. lia. }
  split; [|split; [reflexivity|eexists; split; [reflexivity|split; reflexivity]]].
  intros C. destruct (C _ V) as (t' & D & (_ & _ & _ & _ & S)). injection D as <-. specialize (S [0%nat]).
  assert (X : [10] = [30]); [|discriminate]. apply S. repeat constructor.
Qed.

(** *** What arrives lies inside the memory received *)
Lemma dot_upper idx sh st : Forall (fun s => 0 <= s) st -> in_range idx sh -> dot idx st <= upper sh st.
Proof.
  intros F I. revert st F. induction I as [|i d idx sh L _ IH]; intros [|s st] F; cbn [dot upper]; try lia.
  inversion F as [|? ? P Q]; subst. specialize (IH st Q). assert (Z.of_nat i * s <= s * (Z.of_nat d - 1)) by nia. lia.
Qed.
(** Whatever header and bytes arrive - even when bytes are missing -, a tensor that is built reads nothing outside of them. *)
Theorem C52_in_bounds : forall h bs t, length (th_stride h) = length (th_size h) -> (0 < th_esize h)%nat -> Forall (fun s => 0 <= s) (th_stride h) ->
  deserial_cpu h bs = Some t \/ deserial_cuda h bs = Some t -> valid t /\ store t = bs /\ size t = th_size h.
Proof.
  intros h bs t L E N H.
  assert (S : forall t, set_storage h bs = Some t -> valid t /\ store t = bs /\ size t = th_size h).
  { clear t H. intros t H. unfold set_storage in H. destruct (_ <=? _) eqn:B in H; [|discriminate]. injection H as <-. apply Z.leb_le in B.
    split; [|split; reflexivity]. unfold valid. cbn [stride size esize offset store]. split; [exact L|]. split; [exact E|]. split; [exact N|]. split; [lia|].
    intros idx I. unfold needed in B. destruct (has_zero (th_size h)) eqn:Z; [exfalso; exact (no_zero_index _ _ Z I)|].
    rewrite place_dot. pose proof (dot_upper idx _ _ N I). nia. }
  destruct H as [H|H]; [|now apply S]. unfold deserial_cpu in H. destruct (th_format h); [|now apply S].
  destruct (Nat.eqb_spec (length bs) (numel (th_size h) * th_esize h)) as [B|]; [|discriminate]. injection H as <-.
  split; [|split; reflexivity]. unfold valid. cbn [stride size esize offset store]. split; [apply fresh_len|]. split; [exact E|].
  split; [apply (fresh_nonneg 1); lia|]. split; [lia|]. intros idx I. rewrite place_dot, fresh_dot by exact I. pose proof (cpos_lt _ _ I).
  rewrite numel_product in B. nia.
Qed.

(** *** cupy arrays *)
(** A copy: same shape and items, and all items inside one block of memory of exactly their total size. *)
Definition dense_copy (copy : array -> array) : Prop := forall a, wf a ->
  shape (copy a) = shape a /\ itemsize (copy a) = itemsize a /\
  forall idx, is_index idx (shape a) -> item (copy a) idx = item a idx /\
    0 <= dot idx (strides (copy a)) /\ dot idx (strides (copy a)) + Z.of_nat (itemsize a) <= Z.of_nat (product (shape a) * itemsize a).
Lemma within_item a b idx n : itemsize b = itemsize a -> 0 <= dot idx (strides a) -> dot idx (strides a) + Z.of_nat (itemsize a) <= Z.of_nat n ->
  mem b = buffer (bytes (mem a) (base a) n) -> base b = 0 -> strides b = strides a -> item b idx = item a idx.
Proof.
  intros E L U M B S. unfold item. rewrite M, B, S, E.
  replace (0 + dot idx (strides a)) with (Z.of_nat (Z.to_nat (dot idx (strides a)))) by lia.
  rewrite buffer_bytes by (rewrite bytes_len; lia). rewrite sub_bytes by lia. f_equal. lia.
Qed.
Theorem C53_cupy : forall copy a, dense_copy copy -> wf a ->
  let b := cupy_deserial (fst (cupy_serial copy a)) (snd (cupy_serial copy a)) in
  shape b = shape a /\ itemsize b = itemsize a /\ forall idx, is_index idx (shape a) -> item b idx = item a idx.
Proof.
  intros copy a D W. unfold cupy_serial. destruct (c_contiguous a || f_contiguous a) eqn:C; cbv zeta; cbn [fst snd].
  - split; [reflexivity|]. split; [reflexivity|]. intros idx I. apply within_item with (n := (numel (shape a) * itemsize a)%nat); try reflexivity.
    all: rewrite ?numel_product; destruct W as (L & P).
    all: destruct (has_zero (shape a)) eqn:Z; [exfalso; exact (no_zero_index _ _ Z I)|].
    all: assert (X : exists k, (k < product (shape a))%nat /\ dot idx (strides a) = Z.of_nat (itemsize a) * Z.of_nat k);
      [|destruct X as (k & K & ->); nia].
    all: unfold c_contiguous, f_contiguous in C; rewrite Z in C; cbn [orb] in C; apply orb_true_iff in C as [C|C].
    1, 3: exists (cpos idx (shape a)); split; [now apply cpos_lt|now apply c_go_dot].
    all: exists (cpos (rev idx) (rev (shape a))); split; [rewrite <- product_rev; apply cpos_lt, is_index_rev, I|].
    all: rewrite <- (dot_rev idx (strides a)) by (rewrite L; now apply index_len).
    all: apply c_go_dot; [rewrite !rev_length; exact L|apply is_index_rev, I|exact C].
  - destruct (D a W) as (S & E & G). cbn [cupy_deserial h_shape h_itemsize shape itemsize]. split; [exact S|]. split; [exact E|].
    intros idx I. destruct (G idx I) as (G1 & G2 & G3). rewrite <- G1.
    apply within_item with (n := (numel (shape (copy a)) * itemsize (copy a))%nat); try reflexivity; [exact G2|].
    rewrite S, E, numel_product. exact G3.
Qed.

(** *** Sparse matrices *)
Theorem C53_csr : forall (A H B : Type) (S : A -> H * list B) (D : H -> list B -> A) (m : csr A),
  (forall x, D (fst (S x)) (snd (S x)) = x) ->
  csr_deserial D (fst (csr_serial S m)) (snd (csr_serial S m)) = m.
Proof.
  intros A H B S D [d i p sh] R. unfold csr_serial. cbn [c_data c_indices c_indptr c_shape].
  pose proof (R d) as Rd. pose proof (R i) as Ri. pose proof (R p) as Rp.
  destruct (S d) as [dh db], (S i) as [ih ib], (S p) as [ph pb]. cbn [fst snd] in *. unfold csr_deserial.
  f_equal.
  - rewrite firstn_app, Nat.sub_diag, firstn_all. cbn [firstn]. rewrite app_nil_r. exact Rd.
  - rewrite skipn_app, skipn_all, Nat.sub_diag. cbn [app skipn]. rewrite firstn_app, Nat.sub_diag, firstn_all. cbn [firstn].
    rewrite app_nil_r. exact Ri.
  - rewrite app_assoc, <- app_length, skipn_app, skipn_all, Nat.sub_diag. exact Rp.
Qed.

(** ** The hypotheses can be met *)
Module Demo.
  (** A transposed slice that requires grad. *)
  Definition t : tensor := {| store := [0; 1; 2; 3; 4; 5; 6; 7; 8; 9; 10; 11; 12; 13; 14; 15; 16; 17]; offset := 1; size := [2%nat; 2%nat]; stride := [1; 3]; esize := 2; in_numpy := true; grad := true |}.
  Example t_valid : valid t.
  Proof.
    unfold valid, t. cbn [stride size esize offset store length]. split; [reflexivity|]. split; [lia|]. split; [repeat constructor; lia|].
    split; [lia|]. intros idx I. inversion I as [|i d r sh L F]; subst. inversion F as [|i' d' r' sh' L' F']; subst. inversion F'; subst. cbn [place]. lia.
  Qed.
  Example t_sent : exists h, serial_cpu t = Some (h, [2; 3; 8; 9; 4; 5; 10; 11]) /\ th_format h = Bytes.
  Proof. eexists. split; reflexivity. Qed.
  Example t_cuda : is_contiguous t = false /\ is_channels_last t = false. Proof. split; reflexivity. Qed.
  (** A picture in channels-last format is sent as it is. *)
  Definition picture : tensor := {| store := [0; 1; 2; 3; 4; 5; 6; 7; 8; 9; 10; 11]; offset := 0; size := [1%nat; 3%nat; 2%nat; 2%nat]; stride := [12; 1; 6; 3]; esize := 1; in_numpy := true; grad := false |}.
  Example picture_format : is_contiguous picture = false /\ is_channels_last picture = true. Proof. split; reflexivity. Qed.
  Example picture_back : exists p, deserial_cuda (fst (serial_cuda picture)) (snd (serial_cuda picture)) = Some p /\ element p [0%nat; 2%nat; 1%nat; 0%nat] = [8] /\ element picture [0%nat; 2%nat; 1%nat; 0%nat] = [8].
  Proof. eexists. split; [vm_compute; reflexivity|]. split; vm_compute; reflexivity. Qed.
  (** numpy's contiguous copy is a dense copy. *)
  Definition some_copy (a : array) : array := match shape a with [] => {| mem := mem a; base := base a; shape := []; strides := []; itemsize := itemsize a |} | _ => ascontiguousarray a end.
  Example copies : dense_copy some_copy.
  Proof.
    intros a W. unfold some_copy. destruct (shape a) as [|d sh] eqn:S.
    - split; [reflexivity|]. split; [reflexivity|]. intros idx I. inversion I; subst. cbn [product strides itemsize dot]. split; [|lia].
      unfold item. cbn [mem base strides itemsize]. destruct W as (W1 & _). rewrite S in W1. destruct (strides a); [reflexivity|discriminate].
    - split; [unfold ascontiguousarray; cbn [shape]; now rewrite S|]. split; [reflexivity|]. intros idx I. rewrite <- S in *.
      split; [apply contiguous_copy; auto; congruence|]. unfold ascontiguousarray. cbn [strides].
      replace (match shape a with [] => [1%nat] | n :: l => n :: l end) with (shape a) by (now rewrite S).
      destruct (has_zero (shape a)) eqn:Z; [exfalso; exact (no_zero_index _ _ Z I)|].
      rewrite (c_go_dot (Z.of_nat (itemsize a)) (shape a) _ idx (fresh_len _ _) I (fresh_c_go _ _ Z)). pose proof (cpos_lt _ _ I). nia.
  Qed.
  Definition sparse : csr (list nat) := {| c_data := [1; 2]; c_indices := [0]; c_indptr := [0; 5; 6]; c_shape := [7; 8] |}%nat.
  Example csr_sent : csr_serial (fun l => (tt, l)) sparse = ((tt, 2, tt, 1, tt, [7; 8]), [1; 2; 0; 0; 5; 6])%nat.
  Proof. reflexivity. Qed.
End Demo.

Print Assumptions C52_cpu.
Print Assumptions C52_cpu_accepted_partial.
Print Assumptions C52_cpu_accepted_refuted.
Print Assumptions C52_cuda_partial.
Print Assumptions C52_cuda_refuted.
Print Assumptions C52_in_bounds.
Print Assumptions C53_cupy.
Print Assumptions C53_csr.
Print Assumptions C52_cuda_format_kept.
