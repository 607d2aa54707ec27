(** Shared vocabulary: Python dictionaries as association lists, results that
    may be exceptions, and small list facts used by several models. *)
From Coq Require Import List Arith Bool Lia.
Import ListNotations.

Set Implicit Arguments.

(** A Python dict over keys [nat] in insertion order.  [dset] is [d[k] = v]
    (an existing key keeps its position), [ddel] is [d.pop(k, None)],
    [dget] is [d.get(k)]. *)
Section Dict.
  Variable V : Type.
  Definition dict := list (nat * V).

  Fixpoint dget (d : dict) (k : nat) : option V :=
    match d with
    | [] => None
    | (k', v) :: d' => if Nat.eqb k' k then Some v else dget d' k
    end.

  Fixpoint dset (d : dict) (k : nat) (v : V) : dict :=
    match d with
    | [] => [(k, v)]
    | (k', v') :: d' => if Nat.eqb k' k then (k', v) :: d' else (k', v') :: dset d' k v
    end.

  Fixpoint ddel (d : dict) (k : nat) : dict :=
    match d with
    | [] => []
    | (k', v') :: d' => if Nat.eqb k' k then ddel d' k else (k', v') :: ddel d' k
    end.

  Definition dmem (d : dict) (k : nat) : bool :=
    match dget d k with Some _ => true | None => false end.

  Definition dkeys (d : dict) : list nat := map fst d.

  Lemma dget_dset_eq : forall d k v, dget (dset d k v) k = Some v.
  Proof.
    induction d as [|[k' v'] d IH]; simpl; intros.
    - now rewrite Nat.eqb_refl.
    - destruct (Nat.eqb k' k) eqn:E; simpl; rewrite E; auto.
  Qed.

  Lemma dget_dset_neq : forall d k k' v, k <> k' -> dget (dset d k v) k' = dget d k'.
  Proof.
    induction d as [|[k0 v0] d IH]; simpl; intros k k' v H.
    - destruct (Nat.eqb_spec k k'); congruence.
    - destruct (Nat.eqb_spec k0 k); simpl; subst.
      + destruct (Nat.eqb_spec k k'); congruence.
      + destruct (Nat.eqb k0 k'); auto.
  Qed.

  Lemma dget_ddel_eq : forall d k, dget (ddel d k) k = None.
  Proof.
    induction d as [|[k0 v0] d IH]; simpl; intros; auto.
    destruct (Nat.eqb k0 k) eqn:E; simpl; auto. now rewrite E.
  Qed.

  Lemma dget_ddel_neq : forall d k k', k <> k' -> dget (ddel d k) k' = dget d k'.
  Proof.
    induction d as [|[k0 v0] d IH]; simpl; intros k k' H; auto.
    destruct (Nat.eqb_spec k0 k); simpl; subst.
    - destruct (Nat.eqb_spec k k'); try congruence; auto.
    - destruct (Nat.eqb k0 k'); auto.
  Qed.

  Lemma dget_dset : forall d k k' v,
    dget (dset d k v) k' = if Nat.eqb k k' then Some v else dget d k'.
  Proof.
    intros. destruct (Nat.eqb_spec k k').
    - subst. apply dget_dset_eq.
    - now apply dget_dset_neq.
  Qed.

  Lemma dget_ddel : forall d k k',
    dget (ddel d k) k' = if Nat.eqb k k' then None else dget d k'.
  Proof.
    intros. destruct (Nat.eqb_spec k k').
    - subst. apply dget_ddel_eq.
    - now apply dget_ddel_neq.
  Qed.

  Lemma dget_In : forall d k v, dget d k = Some v -> In (k, v) d.
  Proof.
    induction d as [|[k0 v0] d IH]; simpl; intros k v H; try discriminate.
    destruct (Nat.eqb_spec k0 k); subst.
    - inversion H; auto.
    - right; auto.
  Qed.

  Lemma In_dget : forall d k v, NoDup (dkeys d) -> In (k, v) d -> dget d k = Some v.
  Proof.
    induction d as [|[k0 v0] d IH]; simpl; intros k v Hn Hi; [tauto|].
    inversion Hn as [|? ? Hn1 Hn2]; subst. destruct Hi as [E|Hi].
    - inversion E; subst. now rewrite Nat.eqb_refl.
    - destruct (Nat.eqb_spec k0 k); subst.
      + exfalso. apply Hn1. change k with (fst (k, v)). now apply in_map.
      + auto.
  Qed.

  Lemma dget_None : forall d k, dget d k = None <-> ~ In k (dkeys d).
  Proof.
    induction d as [|[k0 v0] d IH]; simpl; intros k.
    - tauto.
    - destruct (Nat.eqb_spec k0 k); subst.
      + split; [discriminate|intros H; exfalso; apply H; auto].
      + rewrite IH. tauto.
  Qed.

  Lemma dkeys_dset : forall d k v x, In x (dkeys (dset d k v)) <-> x = k \/ In x (dkeys d).
  Proof.
    induction d as [|[k0 v0] d IH]; simpl; intros k v x.
    - intuition.
    - destruct (Nat.eqb_spec k0 k); simpl; subst; [|rewrite IH]; intuition.
  Qed.

  Lemma NoDup_dset : forall d k v, NoDup (dkeys d) -> NoDup (dkeys (dset d k v)).
  Proof.
    induction d as [|[k0 v0] d IH]; simpl; intros k v H.
    - constructor; [easy|constructor].
    - inversion H; subst. destruct (Nat.eqb_spec k0 k); simpl.
      + constructor; auto.
      + constructor; auto. fold (dkeys (dset d k v)).
        rewrite dkeys_dset. intros [E|E]; [congruence|now apply H2].
  Qed.

  Lemma dkeys_ddel : forall d k x, In x (dkeys (ddel d k)) <-> x <> k /\ In x (dkeys d).
  Proof.
    induction d as [|[k0 v0] d IH]; simpl; intros k x.
    - tauto.
    - destruct (Nat.eqb_spec k0 k); simpl; subst; rewrite IH; intuition congruence.
  Qed.

  Lemma NoDup_ddel : forall d k, NoDup (dkeys d) -> NoDup (dkeys (ddel d k)).
  Proof.
    induction d as [|[k0 v0] d IH]; simpl; intros k H; auto.
    inversion H; subst. destruct (Nat.eqb_spec k0 k); simpl; auto.
    constructor; auto. fold (dkeys (ddel d k)). rewrite dkeys_ddel. tauto.
  Qed.

  Lemma length_dset_new : forall d k v, dget d k = None -> length (dset d k v) = S (length d).
  Proof.
    induction d as [|[k0 v0] d IH]; simpl; intros k v H; auto.
    destruct (Nat.eqb k0 k); [discriminate|]. simpl. now rewrite IH.
  Qed.

  Lemma length_dset_old : forall d k v w, dget d k = Some w -> length (dset d k v) = length d.
  Proof.
    induction d as [|[k0 v0] d IH]; simpl; intros k v w H; [discriminate|].
    destruct (Nat.eqb k0 k); simpl; auto. f_equal. eauto.
  Qed.
End Dict.

(** [lset l i v] is [l[i] = v] for an index in range (otherwise unchanged). *)
Fixpoint lset {A} (l : list A) (i : nat) (v : A) : list A :=
  match l, i with
  | [], _ => []
  | _ :: l', 0 => v :: l'
  | x :: l', S i' => x :: lset l' i' v
  end.

Lemma lset_length : forall A (l : list A) i v, length (lset l i v) = length l.
Proof. induction l; destruct i; simpl; intros; auto. Qed.

Lemma nth_error_lset_eq : forall A (l : list A) i v,
  i < length l -> nth_error (lset l i v) i = Some v.
Proof.
  induction l; destruct i; simpl; intros; auto; try lia. apply IHl; lia.
Qed.

Lemma nth_error_lset_neq : forall A (l : list A) i j v,
  i <> j -> nth_error (lset l i v) j = nth_error l j.
Proof.
  induction l; destruct i, j; simpl; intros; auto; try congruence.
Qed.

Lemma nth_error_lset : forall A (l : list A) i j v,
  nth_error (lset l i v) j =
  if Nat.eqb i j then (if Nat.ltb i (length l) then Some v else None) else nth_error l j.
Proof.
  intros. destruct (Nat.eqb_spec i j).
  - subst. destruct (Nat.ltb_spec j (length l)).
    + now apply nth_error_lset_eq.
    + apply nth_error_None. rewrite lset_length. lia.
  - now apply nth_error_lset_neq.
Qed.

Lemma skipn_skipn : forall A (x y : nat) (l : list A), skipn x (skipn y l) = skipn (y + x) l.
Proof.
  intros A x y; revert x. induction y; intros x l; simpl; auto.
  destruct l; simpl; auto. destruct x; reflexivity.
Qed.

Lemma nth_error_ext : forall A (l l' : list A),
  (forall i, nth_error l i = nth_error l' i) -> l = l'.
Proof.
  induction l; destruct l'; intros H; auto.
  - specialize (H 0); discriminate.
  - specialize (H 0); discriminate.
  - f_equal.
    + specialize (H 0); simpl in H; congruence.
    + apply IHl. intros i. exact (H (S i)).
Qed.

Arguments dget {V} d k.
Arguments dset {V} d k v.
Arguments ddel {V} d k.
Arguments dmem {V} d k.
Arguments dkeys {V} d.
