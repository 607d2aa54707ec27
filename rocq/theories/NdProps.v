(** * C40: arrays keep shape, order and content over the wire

    How to read.  [item a idx] is the element (its bytes) that [a[idx]] reads: the bytes at the
    array's base address plus the sum of index times stride.  The theorems quantify over every
    memory, base address, shape (with zeros and ones), list of strides (positive, negative or
    zero, so transposed, reversed, sliced, overlapping and broadcast views) and item size.
    [Forall2 lt idx (shape a)]: [idx] is an index of the array. *)
From Coq Require Import List ZArith Lia Bool.
From Verif Require Import NdModel.
Import ListNotations.
Open Scope Z_scope.

(** ** Specification *)
Definition wf (a : array) : Prop := length (strides a) = length (shape a) /\ (0 < itemsize a)%nat.
Definition is_index (idx : list nat) (sh : list nat) : Prop := Forall2 lt idx sh.
Fixpoint product (sh : list nat) : nat := match sh with [] => 1%nat | d :: sh => (d * product sh)%nat end.

(** ** Proofs *)
Fixpoint cpos (idx sh : list nat) : nat :=
  match idx, sh with
  | i :: idx, d :: sh => (i * product sh + cpos idx sh)%nat
  | _, _ => 0%nat
  end.
Lemma cpos_lt idx sh : is_index idx sh -> (cpos idx sh < product sh)%nat.
Proof. induction 1 as [|i d idx sh L F IH]; cbn [cpos product]; nia. Qed.
Lemma no_zero_index sh idx : has_zero sh = true -> ~ is_index idx sh.
Proof.
  unfold has_zero. intros Z F. apply existsb_exists in Z as (d & I & E). apply Nat.eqb_eq in E. subst d.
  revert I. induction F as [|i d idx sh L F IH]; cbn; [tauto|]. intros [->|I]; [lia|auto].
Qed.

Lemma flat_map_chunks {A} (f : nat -> list A) n (d : A) : (forall i, length (f i) = n) ->
  forall m s i k, (i < m)%nat -> (k < n)%nat ->
  nth (i * n + k) (flat_map f (seq s m)) d = nth k (f (s + i)%nat) d.
Proof.
  intros L m. induction m as [|m IH]; intros s i k Hi Hk; [lia|]. cbn [seq flat_map].
  destruct i as [|i].
  - rewrite app_nth1 by (rewrite L; lia). now rewrite Nat.add_0_r.
  - rewrite app_nth2 by (rewrite L; nia). rewrite L. replace (S i * n + k - n)%nat with (i * n + k)%nat by nia.
    rewrite IH by lia. f_equal. f_equal. lia.
Qed.
Lemma flat_map_len {A B} (f : A -> list B) n l : (forall x, length (f x) = n) -> length (flat_map f l) = (length l * n)%nat.
Proof. intros L. induction l as [|x l IH]; cbn [flat_map length]; auto. rewrite app_length, L, IH. lia. Qed.
Lemma c_indexes_len sh : length (c_indexes sh) = product sh.
Proof.
  induction sh as [|d sh IH]; cbn [c_indexes product]; auto.
  rewrite (flat_map_len _ (product sh)); [now rewrite seq_length|]. intros x. now rewrite map_length.
Qed.
Lemma c_indexes_nth idx sh : is_index idx sh -> nth (cpos idx sh) (c_indexes sh) [] = idx.
Proof.
  induction 1 as [|i d idx sh L F IH]; cbn [cpos c_indexes]; [reflexivity|].
  rewrite (flat_map_chunks _ (product sh)).
  - cbn [plus]. pose proof (cpos_lt _ _ F).
    rewrite (nth_indep _ [] (i :: [])) by (rewrite map_length, c_indexes_len; lia).
    rewrite map_nth. now rewrite IH.
  - intros j. now rewrite map_length, c_indexes_len.
  - lia.
  - apply cpos_lt; auto.
Qed.
Lemma f_indexes_len sh : length (f_indexes sh) = product (rev sh).
Proof. unfold f_indexes. now rewrite map_length, c_indexes_len. Qed.
Lemma is_index_rev idx sh : is_index idx sh -> is_index (rev idx) (rev sh).
Proof.
  induction 1 as [|i d idx sh L F IH]; cbn [rev]; [constructor|]. apply Forall2_app; [exact IH|].
  constructor; [exact L|constructor].
Qed.
Lemma f_indexes_nth idx sh : is_index idx sh -> nth (cpos (rev idx) (rev sh)) (f_indexes sh) [] = idx.
Proof.
  intros F. unfold f_indexes. apply is_index_rev in F.
  change (@nil nat) with (rev (@nil nat)). rewrite map_nth.
  rewrite c_indexes_nth by auto. apply rev_involutive.
Qed.
Lemma product_app a b : product (a ++ b) = (product a * product b)%nat.
Proof. induction a as [|d a IH]; cbn [product app]; [lia|]. rewrite IH. lia. Qed.
Lemma product_rev sh : product (rev sh) = product sh.
Proof. induction sh as [|d sh IH]; cbn [rev]; auto. rewrite product_app, IH. cbn [product]. lia. Qed.

(** *** Bytes in the buffer *)
Lemma bytes_len m a n : length (bytes m a n) = n.
Proof. revert a. induction n as [|n IH]; intros a; cbn [bytes length]; auto. Qed.
Lemma bytes_nth m a n k : (k < n)%nat -> nth k (bytes m a n) 0 = m (a + Z.of_nat k).
Proof.
  revert a k. induction n as [|n IH]; intros a k L; [lia|]. cbn [bytes]. destruct k as [|k]; cbn [nth].
  - f_equal. lia.
  - rewrite IH by lia. f_equal. lia.
Qed.
Lemma bytes_ext m a n bs : length bs = n -> (forall k, (k < n)%nat -> m (a + Z.of_nat k) = nth k bs 0) -> bytes m a n = bs.
Proof.
  intros L E. apply (nth_ext _ _ 0 0); [now rewrite bytes_len|]. intros k Hk. rewrite bytes_len in Hk.
  rewrite bytes_nth by auto. auto.
Qed.
Lemma item_len a idx : length (item a idx) = itemsize a.
Proof. apply bytes_len. Qed.
Lemma flat_map_nth {A B} (f : A -> list B) n (da : A) (db : B) l : (forall x, length (f x) = n) ->
  forall i k, (i < length l)%nat -> (k < n)%nat -> nth (i * n + k) (flat_map f l) db = nth k (f (nth i l da)) db.
Proof.
  intros L. induction l as [|x l IH]; intros i k Hi Hk; cbn [length] in Hi; [lia|]. cbn [flat_map]. destruct i as [|i].
  - rewrite app_nth1 by (rewrite L; lia). reflexivity.
  - rewrite app_nth2 by (rewrite L; nia). rewrite L. replace (S i * n + k - n)%nat with (i * n + k)%nat by nia.
    rewrite IH by lia. reflexivity.
Qed.
(** Reading the k-th item of the buffer. *)
Lemma buffer_item a l k : (k < length l)%nat ->
  bytes (buffer (flat_map (item a) l)) (0 + Z.of_nat (itemsize a) * Z.of_nat k) (itemsize a) = item a (nth k l []).
Proof.
  intros Hk. apply bytes_ext; [apply item_len|]. intros j Hj. unfold buffer.
  replace (Z.to_nat (0 + Z.of_nat (itemsize a) * Z.of_nat k + Z.of_nat j)) with (k * itemsize a + j)%nat by nia.
  rewrite (flat_map_nth _ (itemsize a) []); auto. apply item_len.
Qed.
Lemma ravel_len a o : length (ravel a o) = (product (shape a) * itemsize a)%nat.
Proof.
  unfold ravel. rewrite (flat_map_len _ (itemsize a)) by apply item_len.
  destruct o; [now rewrite c_indexes_len|now rewrite f_indexes_len, product_rev].
Qed.

(** *** Contiguous strides address items in order *)
Lemma c_go_sd isz sh st : length st = length sh -> snd (c_go isz sh st) = isz * Z.of_nat (product sh).
Proof.
  revert st. induction sh as [|d sh IH]; intros [|s st] L; cbn in L; try discriminate; cbn [c_go product snd]; [lia|].
  specialize (IH st ltac:(lia)). destruct (c_go isz sh st) as (ok, sd). cbn [snd] in IH.
  destruct (Nat.eqb_spec d 1) as [->|N]; cbn [snd]; lia.
Qed.
Lemma c_go_dot isz sh st idx : length st = length sh -> is_index idx sh ->
  fst (c_go isz sh st) = true -> dot idx st = isz * Z.of_nat (cpos idx sh).
Proof.
  intros L F. revert st L. induction F as [|i d idx sh Li F IH]; intros [|s st] L; cbn in L; try discriminate; cbn [c_go dot cpos]; [lia|].
  pose proof (c_go_sd isz sh st ltac:(lia)) as Sd. specialize (IH st ltac:(lia)).
  destruct (c_go isz sh st) as (ok, sd). cbn [fst snd] in *.
  destruct (Nat.eqb_spec d 1) as [->|N]; cbn [fst]; intros E.
  - rewrite IH by auto. assert (i = 0)%nat as -> by lia. lia.
  - apply andb_true_iff in E as (-> & E). apply Z.eqb_eq in E. subst s. rewrite IH by auto. lia.
Qed.
Lemma dot_app a b s t : length a = length s -> dot (a ++ b) (s ++ t) = dot a s + dot b t.
Proof. revert s. induction a as [|i a IH]; intros [|x s] L; cbn in L; try discriminate; cbn [dot app]; auto. rewrite IH by lia. lia. Qed.
Lemma dot_rev a s : length a = length s -> dot (rev a) (rev s) = dot a s.
Proof.
  revert s. induction a as [|i a IH]; intros [|x s] L; cbn in L; try discriminate; cbn [rev dot]; auto.
  rewrite dot_app by (rewrite !rev_length; lia). rewrite IH by lia. cbn [dot]. lia.
Qed.
Lemma index_len idx sh : is_index idx sh -> length idx = length sh.
Proof. induction 1; cbn; auto. Qed.

Lemma fresh_snd isz sh : has_zero sh = false -> snd (fresh_strides isz sh) = isz * Z.of_nat (product sh).
Proof.
  unfold has_zero. induction sh as [|d sh IH]; cbn [fresh_strides product existsb]; [cbn; lia|].
  intros E. apply orb_false_iff in E as (E1 & E2). specialize (IH E2). destruct (fresh_strides isz sh) as (st, sd). cbn [snd] in *.
  destruct (Nat.eqb_spec d 0) as [->|N]; [discriminate|]. lia.
Qed.
Lemma fresh_len isz sh : length (fst (fresh_strides isz sh)) = length sh.
Proof. induction sh as [|d sh IH]; cbn [fresh_strides length]; auto. destruct (fresh_strides isz sh). cbn [fst length] in *. lia. Qed.
Lemma fresh_c_go isz sh : has_zero sh = false -> fst (c_go isz sh (fst (fresh_strides isz sh))) = true.
Proof.
  unfold has_zero. induction sh as [|d sh IH]; [reflexivity|]. intros E. cbn [existsb] in E. apply orb_false_iff in E as (E1 & E2).
  specialize (IH E2). pose proof (fresh_snd isz sh E2) as Sf. pose proof (fresh_len isz sh) as Lf.
  cbn [fresh_strides]. destruct (fresh_strides isz sh) as (st, sd) eqn:Ef. cbn [fst snd] in *. cbn [c_go].
  pose proof (c_go_sd isz sh st Lf) as Sd. destruct (c_go isz sh st) as (ok, sd'). cbn [fst snd] in *. subst ok.
  destruct (Nat.eqb d 1); cbn [fst]; auto. apply Z.eqb_eq. congruence.
Qed.

Definition result (h : header) (bs : list Z) : array :=
  {| mem := buffer bs; base := 0; shape := h_shape h; strides := h_strides h; itemsize := h_itemsize h |}.

(** The item of the received array, for a contiguous array sent in the matching order. *)
Lemma sent_c a idx : length (strides a) = length (shape a) -> c_contiguous a = true -> is_index idx (shape a) ->
  bytes (buffer (ravel a OrderC)) (0 + dot idx (strides a)) (itemsize a) = item a idx.
Proof.
  intros L C F. unfold c_contiguous in C. apply orb_true_iff in C as [Z|C]; [exfalso; exact (no_zero_index _ _ Z F)|].
  rewrite (c_go_dot _ _ _ _ L F C). unfold ravel. rewrite buffer_item; [|rewrite c_indexes_len; apply cpos_lt, F].
  now rewrite c_indexes_nth.
Qed.
Lemma sent_f a idx : length (strides a) = length (shape a) -> f_contiguous a = true -> is_index idx (shape a) ->
  bytes (buffer (ravel a OrderF)) (0 + dot idx (strides a)) (itemsize a) = item a idx.
Proof.
  intros L C F. unfold f_contiguous in C. apply orb_true_iff in C as [Z|C]; [exfalso; exact (no_zero_index _ _ Z F)|].
  pose proof (index_len _ _ F) as Li.
  rewrite <- (dot_rev idx (strides a)) by lia.
  assert (Lr : length (rev (strides a)) = length (rev (shape a))) by (rewrite !rev_length; exact L).
  rewrite (c_go_dot _ _ _ (rev idx) Lr (is_index_rev _ _ F) C).
  unfold ravel. rewrite buffer_item; [|rewrite f_indexes_len; apply cpos_lt, is_index_rev, F].
  now rewrite f_indexes_nth.
Qed.
Lemma contiguous_copy a idx : wf a -> is_index idx (shape a) -> shape a <> [] ->
  item (ascontiguousarray a) idx = item a idx.
Proof.
  intros (L & _) F N. unfold item, ascontiguousarray. cbn [mem base strides itemsize].
  destruct (shape a) as [|d sh] eqn:E; [congruence|]. rewrite <- E in *. clear N.
  destruct (has_zero (shape a)) eqn:Z; [exfalso; exact (no_zero_index _ _ Z F)|].
  rewrite (c_go_dot (Z.of_nat (itemsize a)) (shape a) _ idx (fresh_len _ _) F (fresh_c_go _ _ Z)).
  unfold ravel. rewrite buffer_item; [|rewrite c_indexes_len; apply cpos_lt, F]. now rewrite c_indexes_nth.
Qed.
Lemma copy_c a : wf a -> c_contiguous (ascontiguousarray a) = true.
Proof.
  intros (L & _). unfold c_contiguous, ascontiguousarray. cbn [shape strides itemsize].
  destruct (shape a) as [|d sh]; [reflexivity|].
  destruct (has_zero (d :: sh)) eqn:Z; [reflexivity|]. cbn [orb]. apply fresh_c_go. exact Z.
Qed.
Lemma scalar_contiguous a : wf a -> shape a = [] -> f_contiguous a = true.
Proof. intros (L & _) E. unfold f_contiguous. rewrite E in *. destruct (strides a); [reflexivity|discriminate]. Qed.

(** *** The constructor accepts the header *)
Lemma bounds_app a b s t : length a = length s ->
  lower (a ++ b) (s ++ t) = lower a s + lower b t /\ upper (a ++ b) (s ++ t) = upper a s + upper b t.
Proof.
  revert s. induction a as [|i a IH]; intros [|x s] L; cbn in L; try discriminate; cbn [lower upper app]; [lia|].
  destruct (IH s ltac:(lia)). lia.
Qed.
Lemma bounds_rev a s : length a = length s -> lower (rev a) (rev s) = lower a s /\ upper (rev a) (rev s) = upper a s.
Proof.
  revert s. induction a as [|i a IH]; intros [|x s] L; cbn in L; try discriminate; cbn [rev lower upper]; [auto|].
  destruct (bounds_app (rev a) [i] (rev s) [x]) as (-> & ->); [rewrite !rev_length; lia|].
  destruct (IH s ltac:(lia)) as (-> & ->). cbn [lower upper]. lia.
Qed.
Lemma product_pos sh : has_zero sh = false -> (0 < product sh)%nat.
Proof.
  unfold has_zero. induction sh as [|d sh IH]; cbn [product existsb]; [lia|].
  intros E. apply orb_false_iff in E as (E1 & E2). apply Nat.eqb_neq in E1. specialize (IH E2). nia.
Qed.
Lemma c_go_bounds isz sh st : 0 < isz -> length st = length sh -> has_zero sh = false -> fst (c_go isz sh st) = true ->
  lower sh st = 0 /\ upper sh st = isz * Z.of_nat (product sh) - isz.
Proof.
  intros P. revert st. induction sh as [|d sh IH]; intros [|s st] L Z; cbn in L; try discriminate; cbn [c_go lower upper product]; [lia|].
  unfold has_zero in Z. cbn [existsb] in Z. apply orb_false_iff in Z as (Z1 & Z2). apply Nat.eqb_neq in Z1.
  pose proof (c_go_sd isz sh st ltac:(lia)) as Sd. specialize (IH st ltac:(lia) Z2). pose proof (product_pos sh Z2).
  destruct (c_go isz sh st) as (ok, sd). cbn [fst snd] in *.
  destruct (Nat.eqb_spec d 1) as [->|N]; cbn [fst]; intros E.
  - destruct (IH E) as (-> & ->). lia.
  - apply andb_true_iff in E as (-> & E). apply Z.eqb_eq in E. subst s sd. destruct (IH eq_refl) as (-> & ->).
    assert (0 <= isz * Z.of_nat (product sh) * (Z.of_nat d - 1)) by nia. rewrite Z.min_l, Z.max_r by lia. lia.
Qed.
Lemma items_product sh : items sh = Z.of_nat (product sh).
Proof. unfold items. induction sh as [|d sh IH]; cbn [fold_right product]; [reflexivity|]. rewrite IH. lia. Qed.
Lemma check_ok isz sh st : (0 < isz)%nat -> length st = length sh ->
  has_zero sh = true \/ (has_zero sh = false /\ lower sh st = 0 /\ upper sh st = Z.of_nat isz * Z.of_nat (product sh) - Z.of_nat isz) ->
  check_strides (Z.of_nat isz) (Z.of_nat (product sh * isz)) sh st = true.
Proof.
  intros P L [Z|(Z & Lo & Up)]; unfold check_strides; rewrite Z; rewrite items_product.
  - destruct (Z.eqb_spec (Z.of_nat (product sh * isz)) 0); apply andb_true_iff; split; apply Z.leb_le; nia.
  - pose proof (product_pos sh Z). rewrite Lo, Up.
    destruct (Z.eqb_spec (Z.of_nat (product sh * isz)) 0); apply andb_true_iff; split; apply Z.leb_le; nia.
Qed.
Lemma contiguous_accepted a o : wf a -> (o = OrderF /\ f_contiguous a = true \/ o = OrderC /\ c_contiguous a = true) ->
  deserial {| h_shape := shape a; h_strides := strides a; h_order := o; h_itemsize := itemsize a |} (ravel a o)
  = Some {| mem := buffer (ravel a o); base := 0; shape := shape a; strides := strides a; itemsize := itemsize a |}.
Proof.
  intros (L & P) C. unfold deserial. cbn [h_shape h_strides h_itemsize].
  rewrite L, Nat.eqb_refl. cbn [negb]. rewrite ravel_len, check_ok; [reflexivity|exact P|exact L|].
  destruct (has_zero (shape a)) eqn:Z; [now left|right]. split; [reflexivity|].
  destruct C as [(_ & C)|(_ & C)].
  - unfold f_contiguous in C. rewrite Z in C. cbn [orb] in C.
    assert (Zr : has_zero (rev (shape a)) = false).
    { unfold has_zero in *. apply not_true_is_false. intros X. apply existsb_exists in X as (d & I & E).
      apply in_rev in I. assert (Y : existsb (Nat.eqb 0) (shape a) = true) by (apply existsb_exists; eauto). congruence. }
    destruct (c_go_bounds (Z.of_nat (itemsize a)) (rev (shape a)) (rev (strides a)) ltac:(lia) ltac:(rewrite !rev_length; lia) Zr C) as (A & B).
    destruct (bounds_rev (shape a) (strides a)) as (A' & B'); [lia|]. rewrite <- A', <- B', A, B, product_rev. auto.
  - unfold c_contiguous in C. rewrite Z in C. cbn [orb] in C.
    destruct (c_go_bounds (Z.of_nat (itemsize a)) (shape a) (strides a) ltac:(lia) L Z C) as (A & B). auto.
Qed.

(** ** Theorems *)

(** Every array comes back: same shape and item size, and the same element at every index. *)
Theorem C40_roundtrip : forall a, wf a ->
  exists b, deserial (fst (serial a)) (snd (serial a)) = Some b /\
    shape b = shape a /\ itemsize b = itemsize a /\
    forall idx, is_index idx (shape a) -> item b idx = item a idx.
Proof.
  intros a Wf. unfold serial. destruct (f_contiguous a) eqn:F; [|destruct (c_contiguous a) eqn:C]; cbn [negb fst snd].
  - eexists. split; [apply contiguous_accepted; auto|]. cbn [shape itemsize]. split; [auto|split; [auto|]].
    intros idx I. unfold item at 1. cbn [mem base strides itemsize]. apply sent_f; auto. apply Wf.
  - eexists. split; [apply contiguous_accepted; auto|]. cbn [shape itemsize]. split; [auto|split; [auto|]].
    intros idx I. unfold item at 1. cbn [mem base strides itemsize]. apply sent_c; auto. apply Wf.
  - assert (N : shape a <> []) by (intros E; apply scalar_contiguous in E; congruence).
    assert (Es : shape (ascontiguousarray a) = shape a) by (unfold ascontiguousarray; cbn [shape]; destruct (shape a); congruence).
    assert (Wf' : wf (ascontiguousarray a)).
    { split; [|apply Wf]. unfold ascontiguousarray. cbn [shape strides]. apply fresh_len. }
    eexists. split; [apply contiguous_accepted; [exact Wf'|right; split; [auto|apply copy_c, Wf]]|].
    cbn [shape itemsize]. split; [exact Es|split; [reflexivity|]].
    intros idx I. rewrite <- (contiguous_copy a idx Wf I N). unfold item at 1. cbn [mem base strides itemsize].
    apply sent_c; [apply Wf'|apply copy_c, Wf|rewrite Es; exact I].
Qed.

(** The memory order survives: a contiguous array (C or Fortran order) comes back with exactly
    its strides, hence both flags; any other array comes back in C order. *)
Theorem C40_order_kept : forall a b, wf a ->
  deserial (fst (serial a)) (snd (serial a)) = Some b ->
  (f_contiguous a = true \/ c_contiguous a = true -> strides b = strides a /\ f_contiguous b = f_contiguous a /\ c_contiguous b = c_contiguous a) /\
  (f_contiguous a = false -> c_contiguous a = false -> c_contiguous b = true).
Proof.
  intros a b Wf. unfold serial. destruct (f_contiguous a) eqn:F; [|destruct (c_contiguous a) eqn:C]; cbn [negb fst snd].
  - rewrite contiguous_accepted by auto. intros E. inversion E; subst. split; [|discriminate]. intros _.
    unfold f_contiguous, c_contiguous in *. cbn [shape strides itemsize]. auto.
  - rewrite contiguous_accepted by auto. intros E. inversion E; subst. split; [|discriminate]. intros _.
    unfold f_contiguous, c_contiguous in *. cbn [shape strides itemsize]. auto.
  - assert (Wf' : wf (ascontiguousarray a)).
    { split; [|apply Wf]. unfold ascontiguousarray. cbn [shape strides]. apply fresh_len. }
    rewrite contiguous_accepted; [|exact Wf'|right; split; [auto|apply copy_c, Wf]].
    intros E. inversion E; subst. split; [intros [X|X]; discriminate|]. intros _ _.
    pose proof (copy_c a Wf) as Q. unfold c_contiguous in *. cbn [shape strides itemsize] in *. exact Q.
Qed.

(** One item per element is sent: a view of a large array sends only what it shows. *)
Theorem C40_sends_only_the_elements : forall a, wf a ->
  length (snd (serial a)) = (product (shape a) * itemsize a)%nat.
Proof.
  intros a Wf. unfold serial. destruct (f_contiguous a) eqn:F; [|destruct (c_contiguous a) eqn:C]; cbn [negb fst snd]; try apply ravel_len.
  rewrite ravel_len. unfold ascontiguousarray. cbn [shape itemsize].
  destruct (shape a) eqn:E; [apply scalar_contiguous in E; congruence|reflexivity].
Qed.

(** Whatever header and bytes arrive (bytes at all), an array that is built reads nothing outside of them. *)
Lemma dot_between idx sh st : is_index idx sh -> length st = length sh -> lower sh st <= dot idx st <= upper sh st.
Proof.
  intros I. revert st. induction I as [|i d idx sh L F IH]; intros [|s st] E; cbn [dot lower upper length] in *; try lia.
  specialize (IH st ltac:(lia)). assert (Z.min 0 (s * (Z.of_nat d - 1)) <= Z.of_nat i * s <= Z.max 0 (s * (Z.of_nat d - 1))).
  { assert (A : 0 <= Z.of_nat i <= Z.of_nat d - 1) by lia. destruct (Z.le_gt_cases 0 s).
    - assert (0 <= Z.of_nat i * s <= s * (Z.of_nat d - 1)) by nia. lia.
    - assert (s * (Z.of_nat d - 1) <= Z.of_nat i * s <= 0) by nia. lia. }
  lia.
Qed.
Theorem C40_in_bounds : forall h bs a, bs <> [] -> deserial h bs = Some a ->
  shape a = h_shape h /\ itemsize a = h_itemsize h /\ (forall k, mem a k = nth (Z.to_nat k) bs 0) /\
  forall idx, is_index idx (shape a) ->
    0 <= base a + dot idx (strides a) /\ base a + dot idx (strides a) + Z.of_nat (itemsize a) <= Z.of_nat (length bs).
Proof.
  intros h bs a N D. unfold deserial in D. destruct (Nat.eqb_spec (length (h_strides h)) (length (h_shape h))) as [L|]; [|discriminate]. cbn [negb] in D.
  destruct (check_strides (Z.of_nat (h_itemsize h)) (Z.of_nat (length bs)) (h_shape h) (h_strides h)) eqn:C; [|discriminate]. cbn [negb] in D. injection D as <-.
  cbn [shape itemsize mem base strides]. split; [reflexivity|]. split; [reflexivity|]. split; [reflexivity|]. intros idx I.
  unfold check_strides in C. destruct (has_zero (h_shape h)) eqn:Z0; [exfalso; exact (no_zero_index _ _ Z0 I)|].
  destruct (Z.eqb_spec (Z.of_nat (length bs)) 0) as [E|_]; [destruct bs; [congruence|cbn in E; lia]|].
  apply andb_true_iff in C. destruct C as [C1 C2]. apply Z.leb_le in C1. apply Z.leb_le in C2.
  pose proof (dot_between _ _ _ I L). lia.
Qed.

(** ** The hypotheses can be met *)
Module Demo.
  Definition m (k : Z) := k mod 251.
  (** The transpose of a reversed slice of a 3-dimensional array: no contiguity at all. *)
  Definition view := {| mem := m; base := 400; shape := [2%nat; 3%nat; 2%nat]; strides := [-16; 100; 4]; itemsize := 2%nat |}.
  Example view_wf : wf view. Proof. split; cbn; lia. Qed.
  Example view_flags : (f_contiguous view, c_contiguous view) = (false, false). Proof. reflexivity. Qed.
  Example view_sent : snd (serial view) = flat_map (fun a => [m a; m (a + 1)]) [400; 404; 500; 504; 600; 604; 384; 388; 484; 488; 584; 588].
  Proof. vm_compute. reflexivity. Qed.
  Example view_back : exists b, deserial (fst (serial view)) (snd (serial view)) = Some b /\ item b [1%nat; 2%nat; 0%nat] = [m 584; m 585] /\ strides b = [12; 4; 2].
  Proof. eexists. split; [vm_compute; reflexivity|]. split; vm_compute; reflexivity. Qed.
  (** A Fortran-ordered array with a dimension of size one and an absurd stride there. *)
  Definition fort := {| mem := m; base := 8; shape := [2%nat; 1%nat; 3%nat]; strides := [4; -999; 8]; itemsize := 4%nat |}.
  Example fort_flags : (f_contiguous fort, c_contiguous fort) = (true, false). Proof. reflexivity. Qed.
  Example fort_back : exists b, deserial (fst (serial fort)) (snd (serial fort)) = Some b /\ strides b = [4; -999; 8] /\ item b [1%nat; 0%nat; 2%nat] = item fort [1%nat; 0%nat; 2%nat].
  Proof. eexists. split; [vm_compute; reflexivity|]. split; vm_compute; reflexivity. Qed.
  (** A header that asks for more than was sent is refused, one that asks for less is served. *)
  Example too_much : deserial {| h_shape := [2%nat; 2%nat]; h_strides := [4; 2]; h_order := OrderC; h_itemsize := 2%nat |} [1; 2; 3; 4; 5; 6; 7] = None.
  Proof. reflexivity. Qed.
  Example enough : exists a, deserial {| h_shape := [2%nat; 2%nat]; h_strides := [4; 2]; h_order := OrderC; h_itemsize := 2%nat |} [1; 2; 3; 4; 5; 6; 7; 8] = Some a /\
    item a [1%nat; 1%nat] = [7; 8].
  Proof. eexists. split; reflexivity. Qed.
  (** An index exists, and the empty and the scalar array are covered. *)
  Example an_index : is_index [1%nat; 2%nat; 0%nat] (shape view). Proof. repeat constructor. Qed.
  Example empty_wf : wf {| mem := m; base := 0; shape := [3%nat; 0%nat]; strides := [7; 9]; itemsize := 8%nat |}. Proof. split; cbn; lia. Qed.
  Example scalar_wf : wf {| mem := m; base := 0; shape := []; strides := []; itemsize := 8%nat |}. Proof. split; cbn; lia. Qed.
End Demo.

Print Assumptions C40_roundtrip.
Print Assumptions C40_order_kept.
Print Assumptions C40_sends_only_the_elements.
Print Assumptions C40_in_bounds.
