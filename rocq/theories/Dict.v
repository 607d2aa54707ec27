(** Python dictionaries with keys of any type with decidable equality, in
    insertion order.  ([Base.dict] is the same for keys [nat].) *)
From Coq Require Import List Bool Lia.
Import ListNotations.

Section Dict.
  Context {K V : Type} (eqb : K -> K -> bool).
  Hypothesis eqb_spec : forall a b, reflect (a = b) (eqb a b).

  (** [d.get(k)] *)
  Fixpoint gget (d : list (K * V)) (k : K) : option V :=
    match d with
    | [] => None
    | (k', v) :: d' => if eqb k' k then Some v else gget d' k
    end.

  (** [d[k] = v]: an existing key keeps its position, a new one goes last *)
  Fixpoint gset (d : list (K * V)) (k : K) (v : V) : list (K * V) :=
    match d with
    | [] => [(k, v)]
    | (k', v') :: d' => if eqb k' k then (k', v) :: d' else (k', v') :: gset d' k v
    end.

  (** [d.pop(k, None)] *)
  Fixpoint gdel (d : list (K * V)) (k : K) : list (K * V) :=
    match d with
    | [] => []
    | (k', v') :: d' => if eqb k' k then gdel d' k else (k', v') :: gdel d' k
    end.

  Definition gkeys (d : list (K * V)) : list K := map fst d.

  Lemma gget_gset : forall d k k' v,
    gget (gset d k v) k' = if eqb k k' then Some v else gget d k'.
  Proof.
    induction d as [|[k0 v0] d IH]; simpl; intros k k' v; auto.
    destruct (eqb_spec k0 k); simpl; subst.
    - destruct (eqb k k'); auto.
    - rewrite IH. destruct (eqb_spec k0 k'), (eqb_spec k k'); auto; congruence.
  Qed.

  Lemma gget_gdel : forall d k k',
    gget (gdel d k) k' = if eqb k k' then None else gget d k'.
  Proof.
    induction d as [|[k0 v0] d IH]; simpl; intros k k'.
    - now destruct (eqb k k').
    - destruct (eqb_spec k0 k); simpl; subst; rewrite IH.
      + destruct (eqb k k'); auto.
      + destruct (eqb_spec k0 k'), (eqb_spec k k'); auto; congruence.
  Qed.

  Lemma gget_In : forall d k v, gget d k = Some v -> In (k, v) d.
  Proof.
    induction d as [|[k0 v0] d IH]; simpl; intros k v H; [discriminate|].
    destruct (eqb_spec k0 k); subst; [inversion H|]; auto.
  Qed.

  Lemma gIn_get : forall d k v, NoDup (gkeys d) -> In (k, v) d -> gget d k = Some v.
  Proof.
    induction d as [|[k0 v0] d IH]; simpl; intros k v Hn Hi; [tauto|].
    inversion Hn as [|? ? H1 H2]; subst. destruct Hi as [E|Hi].
    - inversion E; subst. destruct (eqb_spec k k); congruence.
    - destruct (eqb_spec k0 k); subst; auto.
      exfalso. apply H1. change k with (fst (k, v)). now apply in_map.
  Qed.

  Lemma gget_None : forall d k, gget d k = None <-> ~ In k (gkeys d).
  Proof.
    induction d as [|[k0 v0] d IH]; simpl; intros k; [tauto|].
    destruct (eqb_spec k0 k); subst.
    - split; [discriminate|tauto].
    - rewrite IH. tauto.
  Qed.

  Lemma gget_Some_key : forall d k, In k (gkeys d) -> exists v, gget d k = Some v.
  Proof.
    intros d k H. destruct (gget d k) eqn:E; eauto. apply gget_None in E. tauto.
  Qed.

  Lemma gkeys_gset : forall d k v x, In x (gkeys (gset d k v)) <-> x = k \/ In x (gkeys d).
  Proof.
    induction d as [|[k0 v0] d IH]; simpl; intros k v x; [intuition|].
    destruct (eqb_spec k0 k); simpl; subst; [|rewrite IH]; intuition.
  Qed.

  Lemma NoDup_gset : forall d k v, NoDup (gkeys d) -> NoDup (gkeys (gset d k v)).
  Proof.
    induction d as [|[k0 v0] d IH]; simpl; intros k v H.
    - constructor; [easy|constructor].
    - inversion H; subst. destruct (eqb_spec k0 k); simpl; constructor; auto.
      fold (gkeys (gset d k v)). rewrite gkeys_gset. intros [E|E]; [congruence|tauto].
  Qed.

  Lemma gkeys_gdel : forall d k x, In x (gkeys (gdel d k)) <-> x <> k /\ In x (gkeys d).
  Proof.
    induction d as [|[k0 v0] d IH]; simpl; intros k x; [tauto|].
    destruct (eqb_spec k0 k); simpl; subst; rewrite IH; intuition congruence.
  Qed.

  Lemma NoDup_gdel : forall d k, NoDup (gkeys d) -> NoDup (gkeys (gdel d k)).
  Proof.
    induction d as [|[k0 v0] d IH]; simpl; intros k H; auto.
    inversion H; subst. destruct (eqb_spec k0 k); simpl; auto.
    constructor; auto. fold (gkeys (gdel d k)). rewrite gkeys_gdel. tauto.
  Qed.

  Lemma gset_new : forall d k v, gget d k = None -> gset d k v = d ++ [(k, v)].
  Proof.
    induction d as [|[k0 v0] d IH]; simpl; intros k v H; auto.
    destruct (eqb k0 k); [discriminate|]. now rewrite IH.
  Qed.

  Lemma gset_keys_old : forall d k v w, gget d k = Some w -> gkeys (gset d k v) = gkeys d.
  Proof.
    induction d as [|[k0 v0] d IH]; simpl; intros k v w H; [discriminate|].
    destruct (eqb k0 k); simpl; auto. f_equal. eauto.
  Qed.

  Lemma gdel_id : forall d k, gget d k = None -> gdel d k = d.
  Proof.
    induction d as [|[k0 v0] d IH]; simpl; intros k H; auto.
    destruct (eqb k0 k); [discriminate|]. now rewrite IH.
  Qed.

  Lemma In_gset : forall d k v x w, NoDup (gkeys d) ->
    (In (x, w) (gset d k v) <-> (x = k /\ w = v) \/ (x <> k /\ In (x, w) d)).
  Proof.
    intros d k v x w Hn. split.
    - intros H. apply gIn_get in H; [|now apply NoDup_gset].
      rewrite gget_gset in H. destruct (eqb_spec k x); subst.
      + left. inversion H. auto.
      + right. split; [congruence|]. now apply gget_In.
    - intros [[E1 E2]|[E1 E2]]; subst.
      + apply gget_In. rewrite gget_gset. now destruct (eqb_spec k k).
      + apply gget_In. rewrite gget_gset. destruct (eqb_spec k x); [congruence|].
        now apply gIn_get.
  Qed.

  Lemma In_gdel : forall d k x w, (In (x, w) (gdel d k) <-> (x <> k /\ In (x, w) d)).
  Proof.
    induction d as [|[k0 v0] d IH]; simpl; intros k x w; [tauto|].
    destruct (eqb_spec k0 k); simpl; subst; rewrite IH; split; intuition; try congruence.
    all: inversion H; subst; tauto.
  Qed.
End Dict.
