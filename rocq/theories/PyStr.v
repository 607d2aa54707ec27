(** * PyStr: Python string methods on ASCII text, as lists of characters

    Not code of the repository: the [str] methods its code calls.  Only ASCII
    characters are represented. *)
From Coq Require Import List Bool Arith Lia Ascii String.
Import ListNotations.
Open Scope list_scope.
Open Scope char_scope.

Notation text := (list ascii).
(** A literal. *)
Definition lit (s : string) : text := list_ascii_of_string s.

(** [s.startswith(p)] *)
Fixpoint startswith (p s : text) : bool :=
  match p, s with
  | [], _ => true
  | c :: p, d :: s => Ascii.eqb c d && startswith p s
  | _, [] => false
  end.

(** [s.split(sep)], with [sep] not empty: leftmost matches, not overlapping.
    [skip] characters of a match are still to be dropped, [acc] is the current
    piece, reversed. *)
Fixpoint split_go (sep : text) (skip : nat) (acc s : text) : list text :=
  match s with
  | [] => [rev acc]
  | c :: s' =>
      match skip with
      | S k => split_go sep k acc s'
      | O => if startswith sep s then rev acc :: split_go sep (List.length sep - 1) [] s'
             else split_go sep 0 (c :: acc) s'
      end
  end.
Definition split (sep s : text) : list text := split_go sep 0 [] s.

(** [sep.join(l)] *)
Fixpoint join (sep : text) (l : list text) : text :=
  match l with
  | [] => []
  | [x] => x
  | x :: l => x ++ sep ++ join sep l
  end.

Fixpoint text_eqb (a b : text) : bool :=
  match a, b with
  | [], [] => true
  | c :: a, d :: b => Ascii.eqb c d && text_eqb a b
  | _, _ => false
  end.

Lemma text_eqb_spec a : forall b, reflect (a = b) (text_eqb a b).
Proof.
  induction a as [|c a IH]; intros [|d b]; simpl; try (constructor; congruence).
  destruct (Ascii.eqb_spec c d) as [->|N]; simpl; [|constructor; congruence].
  destruct (IH b) as [->|N]; constructor; congruence.
Qed.
Lemma text_eqb_refl a : text_eqb a a = true.
Proof. destruct (text_eqb_spec a a); congruence. Qed.

(** ASCII characters with [c.isspace()]. *)
Definition is_space (c : ascii) : bool :=
  let n := nat_of_ascii c in ((n =? 32) || ((9 <=? n) && (n <=? 13)) || ((28 <=? n) && (n <=? 31)))%nat.

(** [s.strip()] *)
Fixpoint lstrip (s : text) : text :=
  match s with c :: s' => if is_space c then lstrip s' else s | [] => [] end.
Definition strip (s : text) : text := rev (lstrip (rev (lstrip s))).

(** [s.lower()] *)
Definition lower1 (c : ascii) : ascii :=
  let n := nat_of_ascii c in if ((65 <=? n) && (n <=? 90))%nat then ascii_of_nat (n + 32) else c.
Definition lower (s : text) : text := map lower1 s.

(** [s.endswith(c)] for one character *)
Definition endswith1 (c : ascii) (s : text) : bool :=
  match rev s with d :: _ => Ascii.eqb c d | [] => false end.

(** The longest prefix of characters satisfying [f], and the rest. *)
Fixpoint span (f : ascii -> bool) (s : text) : text * text :=
  match s with
  | c :: s' => if f c then let (a, b) := span f s' in (c :: a, b) else ([], s)
  | [] => ([], [])
  end.

(** ** Lemmas *)
Lemma startswith_app p s : startswith p s = true <-> exists t, s = p ++ t.
Proof.
  revert s. induction p as [|c p IH]; intros s; simpl.
  - split; eauto.
  - destruct s as [|d s]; [split; [discriminate|intros (t & H); discriminate]|].
    rewrite andb_true_iff, IH. destruct (Ascii.eqb_spec c d) as [->|N].
    + split; [intros (_ & t & ->)|intros (t & H); inversion H]; eauto.
    + split; [intros ([=] & _)|]. intros (t & H). inversion H. congruence.
Qed.

(** ** Splitting at one character *)
Lemma split1_char c : forall s acc,
  split_go [c] 0 acc s =
  match s with
  | [] => [rev acc]
  | d :: s' => if Ascii.eqb c d then rev acc :: split_go [c] 0 [] s' else split_go [c] 0 (d :: acc) s'
  end.
Proof. intros [|d s] acc; simpl; auto. destruct (Ascii.eqb c d); reflexivity. Qed.

Lemma split1_acc c s : forall acc, exists x l, split_go [c] 0 [] s = x :: l /\ split_go [c] 0 acc s = (rev acc ++ x) :: l.
Proof.
  induction s as [|d s IH]; intros acc.
  - exists [], []. simpl. now rewrite app_nil_r.
  - rewrite !(split1_char c (d :: s)). destruct (Ascii.eqb c d).
    + exists [], (split_go [c] 0 [] s). simpl. now rewrite app_nil_r.
    + destruct (IH [d]) as (x & l & E1 & E2). destruct (IH (d :: acc)) as (x' & l' & E1' & E2').
      rewrite E1 in E1'. inversion E1'; subst. rewrite E2, E2'. simpl.
      exists (d :: x'), l'. split; auto. now rewrite <- app_assoc.
Qed.

Lemma split1_none c s : ~ In c s -> split [c] s = [s].
Proof.
  unfold split. intros N. assert (H : forall acc, split_go [c] 0 acc s = [rev acc ++ s]).
  { induction s as [|d s IH]; intros acc; rewrite split1_char; [now rewrite app_nil_r|].
    destruct (Ascii.eqb_spec c d) as [->|]; [elim N; simpl; auto|].
    rewrite IH by (simpl in N; tauto). simpl. now rewrite <- app_assoc. }
  apply (H []).
Qed.

Lemma split1_app c a b : split [c] (a ++ c :: b) = split [c] a ++ split [c] b.
Proof.
  unfold split. assert (H : forall acc, split_go [c] 0 acc (a ++ c :: b) = split_go [c] 0 acc a ++ split_go [c] 0 [] b).
  { induction a as [|d a IH]; intros acc; cbn [app]; rewrite split1_char.
    - now rewrite Ascii.eqb_refl.
    - rewrite (split1_char c (d :: a)). destruct (Ascii.eqb c d); rewrite IH; reflexivity. }
  apply H.
Qed.

Lemma split1_join c l : l <> [] -> Forall (fun g => ~ In c g) l -> split [c] (join [c] l) = l.
Proof.
  intros N F. induction F as [|g l G F IH]; [congruence|].
  destruct l as [|g' l]; [now apply split1_none|].
  change (join [c] (g :: g' :: l)) with (g ++ c :: join [c] (g' :: l)). rewrite split1_app, split1_none, IH; auto. discriminate.
Qed.

Lemma split_nonempty sep s : split sep s <> [].
Proof.
  unfold split. generalize 0 at 1. generalize (@nil ascii). induction s as [|c s IH]; intros acc k; simpl; [discriminate|].
  destruct k; auto. destruct (startswith sep (c :: s)); [discriminate|auto].
Qed.

Lemma join_split1 c s : join [c] (split [c] s) = s.
Proof.
  unfold split. assert (H : forall acc, join [c] (split_go [c] 0 acc s) = rev acc ++ s).
  { induction s as [|d s IH]; intros acc; rewrite split1_char; [simpl; now rewrite app_nil_r|].
    destruct (Ascii.eqb_spec c d) as [->|].
    - specialize (IH []). destruct (split_go [d] 0 [] s) eqn:E; [apply split_nonempty in E; destruct E|].
      cbn [join]. cbn [join] in IH. rewrite IH. reflexivity.
    - rewrite IH. simpl. now rewrite <- app_assoc. }
  apply (H []).
Qed.

(** ** Splitting at a longer separator that begins with [c] and contains [d] *)
Lemma split_no_char sep d s : In d sep -> ~ In d s -> split sep s = [s].
Proof.
  intros I N. unfold split. assert (H : forall acc, split_go sep 0 acc s = [rev acc ++ s]).
  { induction s as [|e s IH]; intros acc; cbn [split_go]; [now rewrite app_nil_r|].
    destruct (startswith sep (e :: s)) eqn:E.
    - apply startswith_app in E. destruct E as (t & E). elim N. rewrite E. apply in_or_app. auto.
    - rewrite IH by (simpl in N; tauto). simpl. now rewrite <- app_assoc. }
  apply (H []).
Qed.

Lemma split_skip sep a : forall k acc s, k = List.length a -> split_go sep k acc (a ++ s) = split_go sep 0 acc s.
Proof.
  induction a as [|c a IH]; intros k acc s ->; cbn [app List.length]; auto. cbn [split_go]. now apply IH.
Qed.

Lemma split_first c sep a s : ~ In c a -> split (c :: sep) (a ++ (c :: sep) ++ s) = a :: split (c :: sep) s.
Proof.
  intros N. unfold split. assert (H : forall acc, split_go (c :: sep) 0 acc (a ++ (c :: sep) ++ s) = (rev acc ++ a) :: split_go (c :: sep) 0 [] s).
  { induction a as [|d a IH]; intros acc.
    - cbn [app]. cbn [split_go]. replace (startswith (c :: sep) (c :: sep ++ s)) with true.
      + rewrite app_nil_r. f_equal. apply split_skip. simpl. lia.
      + symmetry. apply startswith_app. exists s. reflexivity.
    - cbn [app split_go]. replace (startswith (c :: sep) (d :: a ++ c :: sep ++ s)) with false.
      + change (c :: sep ++ s) with ((c :: sep) ++ s). rewrite IH by (simpl in N; tauto). simpl. now rewrite <- app_assoc.
      + cbn [startswith]. destruct (Ascii.eqb_spec c d) as [->|]; auto. elim N. simpl. auto. }
  apply (H []).
Qed.

(** ** Spaces and prefixes *)
Definition spaces (s : text) : Prop := Forall (fun c => is_space c = true) s.

Lemma lstrip_spaces w s : spaces w -> lstrip (w ++ s) = lstrip s.
Proof. induction 1 as [|c w H F IH]; auto. simpl. now rewrite H. Qed.

Lemma lstrip_id s : (forall c t, s = c :: t -> is_space c = false) -> lstrip s = s.
Proof. destruct s as [|c s]; auto. intros H. simpl. now rewrite (H c s eq_refl). Qed.

Lemma lstrip_split s : exists w, s = w ++ lstrip s /\ spaces w.
Proof.
  induction s as [|c s (w & E & F)]; [exists []; split; constructor|]. simpl.
  destruct (is_space c) eqn:S.
  - exists (c :: w). simpl. rewrite <- E. split; auto. constructor; auto.
  - exists []. split; auto. constructor.
Qed.
Lemma lstrip_head s c t : lstrip s = c :: t -> is_space c = false.
Proof. induction s as [|d s IH]; [discriminate|]. simpl. destruct (is_space d) eqn:S; auto. intros E. inversion E. congruence. Qed.

Lemma spaces_rev w : spaces w -> spaces (rev w).
Proof. apply Forall_rev. Qed.

(** A text that neither begins nor ends with a space. *)
Definition trimmed (s : text) : Prop :=
  (forall c t, s = c :: t -> is_space c = false) /\ (forall c t, s = t ++ [c] -> is_space c = false).

Lemma strip_ok w s w' : spaces w -> spaces w' -> trimmed s -> strip (w ++ s ++ w') = s.
Proof.
  intros W W' [T1 T2]. unfold strip. rewrite lstrip_spaces by auto.
  destruct s as [|c s].
  - simpl. rewrite <- (app_nil_r w'). rewrite lstrip_spaces by auto. reflexivity.
  - rewrite (lstrip_id (_ ++ _)).
    + rewrite rev_app_distr, lstrip_spaces by now apply spaces_rev.
      rewrite lstrip_id; [apply rev_involutive|]. intros d t E. apply (T2 d (rev t)).
      apply (f_equal (@rev _)) in E. rewrite rev_involutive in E. exact E.
    + intros d t E. inversion E; subst. now apply (T1 d s).
Qed.

Lemma strip_split s : exists w w', s = w ++ strip s ++ w' /\ spaces w /\ spaces w' /\ trimmed (strip s).
Proof.
  unfold strip. destruct (lstrip_split s) as (w & E & W). destruct (lstrip_split (rev (lstrip s))) as (w' & E' & W').
  exists w, (rev w'). split; [|split; [auto|split; [now apply spaces_rev|]]].
  - rewrite E at 1. f_equal. apply (f_equal (@rev _)) in E'. rewrite rev_involutive, rev_app_distr in E'. exact E'.
  - split; intros c t Q.
    + apply (f_equal (@rev _)) in E'. rewrite rev_involutive, rev_app_distr in E'. rewrite Q in E'.
      now apply lstrip_head in E'.
    + apply (f_equal (@rev _)) in Q. rewrite rev_involutive, rev_app_distr in Q. now apply lstrip_head in Q.
Qed.

Lemma span_app f a b : Forall (fun c => f c = true) a -> (forall c t, b = c :: t -> f c = false) -> span f (a ++ b) = (a, b).
Proof.
  induction 1 as [|c a H F IH]; intros B; simpl.
  - destruct b as [|c b]; auto. simpl. now rewrite (B c b eq_refl).
  - now rewrite H, IH.
Qed.

Lemma span_spec f s : s = fst (span f s) ++ snd (span f s) /\ Forall (fun c => f c = true) (fst (span f s))
  /\ (forall c t, snd (span f s) = c :: t -> f c = false).
Proof.
  induction s as [|c s (E & F & H)]; [split; [reflexivity|split; [constructor|intros c t H; discriminate H]]|]. simpl.
  destruct (f c) eqn:Q.
  - destruct (span f s) as [a b]. simpl in *. subst. repeat split; auto.
  - simpl. repeat split; auto. intros d t X. inversion X. congruence.
Qed.

Lemma endswith1_spec c s : endswith1 c s = true <-> exists t, s = t ++ [c].
Proof.
  unfold endswith1. destruct (rev s) as [|d r] eqn:E; apply (f_equal (@rev _)) in E; rewrite rev_involutive in E; subst.
  - split; [discriminate|]. intros (t & H). destruct t; discriminate.
  - simpl. destruct (Ascii.eqb_spec c d) as [->|N]; split; eauto; try discriminate.
    intros (t & H). apply app_inj_tail in H. destruct H. congruence.
Qed.
