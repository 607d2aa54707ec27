(** C21: process indexes.

    /repo/python/xoscar/backends/pool.py 1028-1035: [_process_index_gen] is one
    [itertools.count()] per process (class attribute), shared by all generators;
    each step of a generator takes the next count [idx] and yields
    [pid << 16 + idx], which Python reads as [pid << (16 + idx)]. *)
From Coq Require Import Arith NArith List Lia.
Import ListNotations.
Open Scope N_scope.

(** pool.py 1035 *)
Definition process_index (pid idx : N) : N := N.shiftl pid (16 + idx).

(** pool.py 1028, 1034: the k-th index (of any generator) taken in process pid,
    counting from 0. *)
Definition taken (pid : N) (k : nat) : N := process_index pid (N.of_nat k).

(** The claim: indexes taken by different processes, or at different times by
    one process, differ. *)
Definition C21_claim : Prop := forall pid pid' k k', 0 < pid -> 0 < pid' ->
  (pid, k) <> (pid', k') -> taken pid k <> taken pid' k'.

(** Within one process they do. *)
Theorem C21_one_process_partial : forall pid k k', 0 < pid -> k <> k' ->
  taken pid k <> taken pid k'.
Proof.
  intros pid k k' H D E. unfold taken, process_index in E. rewrite !N.shiftl_mul_pow2 in E.
  apply N.mul_cancel_l in E; [|lia]. apply N.pow_inj_r in E; lia.
Qed.

(** Exactly when two processes collide. *)
Theorem C21_collisions : forall pid pid' k k',
  taken pid k = taken pid' k' <-> pid * 2 ^ N.of_nat k = pid' * 2 ^ N.of_nat k'.
Proof.
  intros. unfold taken, process_index. rewrite !N.shiftl_mul_pow2, !N.pow_add_r.
  assert (P : 2 ^ 16 <> 0) by (apply N.pow_nonzero; lia).
  rewrite (N.mul_comm (2 ^ 16)), (N.mul_comm (2 ^ 16)), !N.mul_assoc.
  split; intros H; [apply N.mul_cancel_r in H; auto|now rewrite H].
Qed.

(** So they never collide between processes whose pids are odd, ... *)
Theorem C21_odd_pids_partial : forall pid pid' k k', N.odd pid = true -> N.odd pid' = true ->
  (pid, k) <> (pid', k') -> taken pid k <> taken pid' k'.
Proof.
  assert (A : forall p q i j, N.odd q = true -> (i < j)%nat ->
            p * 2 ^ N.of_nat j <> q * 2 ^ N.of_nat i).
  { intros p q i j O L E.
    replace (N.of_nat j) with (N.of_nat (j - i) + N.of_nat i) in E by lia.
    rewrite N.pow_add_r, N.mul_assoc in E. apply N.mul_cancel_r in E; [|apply N.pow_nonzero; lia].
    rewrite <- E in O. rewrite N.odd_mul in O.
    replace (N.of_nat (j - i)) with (N.succ (N.of_nat (j - i - 1))) in O by lia.
    rewrite N.pow_succ_r', N.odd_mul in O. simpl in O. rewrite Bool.andb_false_r in O. discriminate. }
  intros pid pid' k k' O O' D E. apply C21_collisions in E.
  destruct (Nat.lt_total k k') as [L|[L|L]].
  - symmetry in E. revert E. now apply A.
  - subst. apply D. f_equal. apply N.mul_cancel_r in E; auto. apply N.pow_nonzero; lia.
  - revert E. now apply A.
Qed.

(** ... but the second index of pid 2 is the first of pid 4. *)
Theorem C21_unique_refuted : ~ C21_claim.
Proof.
  intros H. apply (H 2 4 1%nat 0%nat); try lia; try reflexivity. intros E. discriminate.
Qed.

Example demo : taken 4711 0 = 308740096 /\ taken 4711 1 = 617480192 /\ taken 3 2 <> taken 5 2.
Proof. repeat split; vm_compute; discriminate. Qed.

Print Assumptions C21_one_process_partial.
Print Assumptions C21_collisions.
Print Assumptions C21_odd_pids_partial.
Print Assumptions C21_unique_refuted.
