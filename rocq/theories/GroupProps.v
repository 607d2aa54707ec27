(** * C35: collective groups give every member a unique consistent rank

    How to read.  [life H a h]: the rank actor [a] was created and then answered the calls
    [h] of [new_group] (newest first), each a pair of the list of ranks it was given and its
    answer.  [process_group a n] is the group the actor uses under the name [n].

    A list of ranks is [legal] in a world of [w] when its elements are ranks of the world
    and there are no repetitions.  [position r l] is the number of members below [r]:
    the rank in the group that a member must get.

    The name is a digest.  The theorems take the digest function [H] as an argument, with two
    hypotheses where needed: digests have 40 characters ([hex40], true of sha1) and
    [no_collision]: among the lists that were actually asked for, different digest inputs
    have different digests (sha1 cannot be proved free of collisions, so this is the exact
    assumption). *)
From Coq Require Import String Ascii DecimalString DecimalZ.
From Coq Require Import List ZArith Lia Bool Permutation.
From Verif Require Import PyStr GroupModel.
Import ListNotations.
Open Scope list_scope.
Open Scope Z_scope.

(** ** Specification *)
Definition legal (w : Z) (l : list Z) : Prop := NoDup l /\ forall r, In r l -> 0 <= r < w.
Definition same_members (l m : list Z) : Prop := forall r, In r l <-> In r m.
Fixpoint position (r : Z) (l : list Z) : Z :=
  match l with
  | [] => 0
  | x :: l' => (if Z_lt_dec x r then 1 else 0) + position r l'
  end.

Definition hex40 (H : text -> text) : Prop := forall t, length (H t) = 40%nat.
(** What is hashed for a list of ranks: the backend and the ranks in increasing order. *)
Definition digest_input (b : backend) (l : list Z) : text :=
  backend_text b ++ join (lit "_") (map str_int (sorted l)).
Definition no_collision (H : text -> text) (b : backend) (asked : list (list Z)) : Prop :=
  forall l m, In l asked -> In m asked ->
    H (digest_input b l) = H (digest_input b m) -> digest_input b l = digest_input b m.

(** ** Proofs *)
Lemma insert_perm x l : Permutation (x :: l) (insert x l).
Proof.
  induction l as [|y l IH]; cbn [insert]; [apply Permutation_refl|].
  destruct (x <=? y); [apply Permutation_refl|].
  eapply perm_trans; [apply perm_swap|]. now apply perm_skip.
Qed.
Lemma sorted_perm l : Permutation l (sorted l).
Proof.
  induction l as [|x l IH]; cbn [sorted]; [constructor|].
  eapply perm_trans; [apply perm_skip, IH|apply insert_perm].
Qed.
Inductive ascending : list Z -> Prop :=
| asc_nil : ascending []
| asc_cons : forall x l, (forall y, In y l -> x <= y) -> ascending l -> ascending (x :: l).
Lemma insert_asc x l : ascending l -> ascending (insert x l).
Proof.
  intros A. induction A as [|y l Hy A IH]; cbn [insert].
  - constructor; [intros ? []|constructor].
  - destruct (Z.leb_spec x y) as [L|L].
    + constructor; [|now constructor]. intros z [<-|I]; [auto|]. specialize (Hy z I). lia.
    + constructor; [|exact IH]. intros z I.
      apply (Permutation_in _ (Permutation_sym (insert_perm x l))) in I. destruct I as [<-|I]; [lia|auto].
Qed.
Lemma sorted_asc l : ascending (sorted l).
Proof. induction l; cbn [sorted]; [constructor|now apply insert_asc]. Qed.
Lemma asc_perm_eq l : ascending l -> forall m, ascending m -> Permutation l m -> l = m.
Proof.
  induction 1 as [|x l Hx A IH]; intros m Am P.
  - now apply Permutation_nil in P.
  - destruct Am as [|y m Hy Am]; [now apply Permutation_sym, Permutation_nil in P|].
    assert (x = y) as <-.
    { assert (I : In x (y :: m)) by (eapply Permutation_in; [exact P|now left]).
      assert (J : In y (x :: l)) by (eapply Permutation_in; [apply Permutation_sym, P|now left]).
      destruct I as [I|I], J as [J|J]; try congruence. specialize (Hx _ J). specialize (Hy _ I). lia. }
    f_equal. apply IH; auto. now apply Permutation_cons_inv in P.
Qed.
Lemma sorted_ext l m : Permutation l m -> sorted l = sorted m.
Proof.
  intros P. apply asc_perm_eq; try apply sorted_asc.
  eapply perm_trans; [apply Permutation_sym, sorted_perm|]. eapply perm_trans; [exact P|apply sorted_perm].
Qed.
Lemma same_perm l m : NoDup l -> NoDup m -> same_members l m -> Permutation l m.
Proof. intros A B E. apply NoDup_Permutation; auto. Qed.

Lemma position_perm r l m : Permutation l m -> position r l = position r m.
Proof. induction 1; cbn [position]; lia. Qed.
Lemma position_bound r l : 0 <= position r l <= Z.of_nat (length l).
Proof. induction l as [|x l IH]; cbn [position length]; [lia|]. destruct (Z_lt_dec x r); lia. Qed.
Lemma position_none r l : (forall y, In y l -> r <= y) -> position r l = 0.
Proof.
  induction l as [|x l IH]; intros F; cbn [position]; auto.
  rewrite IH by (intros; apply F; now right). specialize (F x (or_introl eq_refl)). destruct (Z_lt_dec x r); lia.
Qed.
Lemma position_lt r s l : In r l -> r < s -> position r l < position s l.
Proof.
  intros I L.
  assert (Mono : forall m, position r m <= position s m).
  { induction m as [|x m IH]; cbn [position]; [lia|]. destruct (Z_lt_dec x r), (Z_lt_dec x s); lia. }
  induction l as [|x l IH]; [destruct I|]. cbn [position]. destruct I as [->|I].
  - specialize (Mono l). destruct (Z_lt_dec r r), (Z_lt_dec r s); lia.
  - specialize (IH I). destruct (Z_lt_dec x r), (Z_lt_dec x s); lia.
Qed.
Lemma position_inj r s l : In r l -> In s l -> position r l = position s l -> r = s.
Proof.
  intros I J E. destruct (Z_lt_le_dec r s) as [L|L].
  - pose proof (position_lt r s l I L). lia.
  - destruct (Z.eq_dec r s) as [|N]; auto. pose proof (position_lt s r l J ltac:(lia)). lia.
Qed.
Lemma position_lt_length r l : In r l -> position r l < Z.of_nat (length l).
Proof.
  induction l as [|x l IH]; [intros []|]. cbn [position length]. intros [->|I].
  - pose proof (position_bound r l). destruct (Z_lt_dec r r); lia.
  - specialize (IH I). destruct (Z_lt_dec x r); lia.
Qed.
Lemma index_position r l : ascending l -> NoDup l -> In r l -> index_of r l = position r l.
Proof.
  induction 1 as [|x l Hx A IH]; intros ND I; [destruct I|]. cbn [index_of position]. inversion ND; subst.
  destruct (Z.eqb_spec r x) as [->|N].
  - rewrite position_none by auto. destruct (Z_lt_dec x x); lia.
  - destruct I as [I|I]; [congruence|]. rewrite IH by auto. specialize (Hx _ I). destruct (Z_lt_dec x r); lia.
Qed.
(** Every position below the size is taken. *)
Lemma position_onto l : NoDup l -> forall k, 0 <= k < Z.of_nat (length l) -> exists r, In r l /\ position r l = k.
Proof.
  intros ND k B.
  set (ps := map (fun r => position r l) l).
  assert (NDp : NoDup ps).
  { apply (NoDup_map_inv (fun x => x)). rewrite map_id. unfold ps.
    assert (G : forall m, NoDup m -> incl m l -> NoDup (map (fun r => position r l) m)).
    { induction m as [|x m IH]; intros N I; cbn [map]; constructor; inversion N; subst.
      - intros C. apply in_map_iff in C as (y & E & Iy). apply position_inj in E; [subst; auto|apply I; now right|apply I; now left].
      - apply IH; auto. intros y Iy. apply I. now right. }
    apply G; [auto|apply incl_refl]. }
  set (full := map Z.of_nat (seq 0 (length l))).
  assert (I : incl ps full).
  { intros p Ip. unfold ps in Ip. apply in_map_iff in Ip as (r & <- & Ir).
    pose proof (position_lt_length r l Ir). pose proof (position_bound r l).
    unfold full. apply in_map_iff. exists (Z.to_nat (position r l)). split; [lia|]. apply in_seq. lia. }
  assert (J : incl full ps).
  { apply NoDup_length_incl; auto. unfold ps, full. rewrite !map_length, seq_length. lia. }
  assert (Ik : In k full). { unfold full. apply in_map_iff. exists (Z.to_nat k). split; [lia|]. apply in_seq. lia. }
  apply J in Ik. unfold ps in Ik. apply in_map_iff in Ik as (r & E & Ir). eauto.
Qed.

Lemma legal_length w l : 0 <= w -> legal w l -> Z.of_nat (length l) <= w.
Proof.
  intros W (ND & R).
  assert (I : incl l (map Z.of_nat (seq 0 (Z.to_nat w)))).
  { intros r Ir. specialize (R r Ir). apply in_map_iff. exists (Z.to_nat r). split; [lia|]. apply in_seq. lia. }
  apply NoDup_incl_length in I; auto. rewrite map_length, seq_length in I. lia.
Qed.
Lemma position_seq r n : 0 <= r <= Z.of_nat n -> position r (map Z.of_nat (seq 0 n)) = r.
Proof.
  intros B.
  assert (G : forall n s, 0 <= r -> position r (map Z.of_nat (seq s n)) =
    Z.max 0 (Z.min r (Z.of_nat (s + n)) - Z.of_nat s)).
  { clear. induction n as [|n IH]; intros s B; cbn [seq map position]; [lia|].
    rewrite IH by auto. destruct (Z_lt_dec (Z.of_nat s) r); lia. }
  rewrite G by lia. lia.
Qed.
(** A group as large as the world is the world: everybody keeps their own rank. *)
Lemma position_world w l r : legal w l -> Z.of_nat (length l) = w -> In r l -> position r l = r.
Proof.
  intros (ND & R) L I.
  assert (P : Permutation l (map Z.of_nat (seq 0 (length l)))).
  { apply NoDup_Permutation_bis; auto.
    - rewrite map_length, seq_length. lia.
    - intros x Ix. specialize (R x Ix). apply in_map_iff. exists (Z.to_nat x). split; [lia|]. apply in_seq. lia. }
  rewrite (position_perm _ _ _ P). apply position_seq. specialize (R r I). lia.
Qed.

(** *** Names *)
Lemma str_uint_no_us d : ~ In "_"%char (lit (NilZero.string_of_uint d)).
Proof.
  assert (G : forall d, ~ In "_"%char (lit (NilEmpty.string_of_uint d))).
  { clear. unfold lit. induction d; cbn; intros C; repeat destruct C as [C|C]; try discriminate; auto. }
  destruct d; try apply G. cbn. intros [C|[]]; discriminate.
Qed.
Lemma str_no_us z : ~ In "_"%char (str_int z).
Proof.
  unfold str_int. destruct (Z.to_int z) as [d|d]; cbn [NilZero.string_of_int]; [apply str_uint_no_us|].
  unfold lit. cbn. intros [C|C]; [discriminate|]. exact (str_uint_no_us d C).
Qed.
Lemma lit_inj a : forall b, lit a = lit b -> a = b.
Proof.
  unfold lit. induction a as [|x a IH]; intros [|y b]; cbn; intros E; try congruence.
  inversion E; subst. f_equal. now apply IH.
Qed.
Lemma to_int_pos z : Z.to_int z <> Decimal.Pos Decimal.Nil.
Proof. destruct z; cbn; try discriminate; intros C; inversion C as [C']; exact (DecimalPos.Unsigned.to_uint_nonnil _ C'). Qed.
Lemma to_int_neg z : Z.to_int z <> Decimal.Neg Decimal.Nil.
Proof. destruct z; cbn; try discriminate; intros C; inversion C as [C']; exact (DecimalPos.Unsigned.to_uint_nonnil _ C'). Qed.
Lemma str_inj x y : str_int x = str_int y -> x = y.
Proof.
  unfold str_int. intros E. apply lit_inj in E.
  apply (f_equal NilZero.int_of_string) in E. rewrite !NilZero.isi in E by (apply to_int_pos || apply to_int_neg).
  inversion E as [E']. apply (f_equal Z.of_int) in E'. now rewrite !DecimalZ.of_to in E'.
Qed.
Lemma names_inj l m : l <> [] -> m <> [] ->
  join (lit "_") (map str_int l) = join (lit "_") (map str_int m) -> l = m.
Proof.
  intros Nl Nm E. change (lit "_") with ["_"%char] in E.
  assert (F : forall k, Forall (fun g => ~ In "_"%char g) (map str_int k)).
  { intros k. apply Forall_forall. intros g I. apply in_map_iff in I as (z & <- & _). apply str_no_us. }
  apply (f_equal (split ["_"%char])) in E. rewrite !split1_join in E; auto;
    try (intros C; apply map_eq_nil in C; auto).
  clear -E. revert m E. induction l as [|x l IH]; intros [|y m] E; cbn in E; try discriminate; auto.
  inversion E as [[E1 E2]]. apply str_inj in E1. subst. f_equal. auto.
Qed.
Lemma digest_inj b l m : l <> [] -> m <> [] -> digest_input b l = digest_input b m -> Permutation l m.
Proof.
  intros Nl Nm E. unfold digest_input in E. apply app_inv_head in E.
  assert (S0 : forall k, k <> [] -> sorted k <> []).
  { intros k N C. apply N. apply Permutation_nil. rewrite <- C. apply Permutation_sym, sorted_perm. }
  apply names_inj in E; auto.
  eapply perm_trans; [apply sorted_perm|]. rewrite E. apply Permutation_sym, sorted_perm.
Qed.
Lemma digest_perm b l m : Permutation l m -> digest_input b l = digest_input b m.
Proof. intros P. unfold digest_input. now rewrite (sorted_ext _ _ P). Qed.

(** *** The checks *)
Lemma nodup_len l : length (nodup Z.eq_dec l) = length l <-> NoDup l.
Proof.
  split; intros E.
  - assert (I : incl (nodup Z.eq_dec l) l) by (intros x; apply nodup_In).
    apply (NoDup_incl_NoDup (NoDup_nodup Z.eq_dec l)); [lia|auto].
  - now rewrite nodup_fixed_point.
Qed.
Lemma life_world_nonneg w l : legal w l -> l <> [] -> 0 <= w.
Proof. intros (_ & R) N. destruct l as [|x l]; [congruence|]. specialize (R x (or_introl eq_refl)). lia. Qed.

Definition refused (a : actor) (l : list Z) : Prop := a_world a < 0 \/ ~ legal (a_world a) l.
(** The result of [new_group], by cases on the specification. *)
Lemma new_group_cases H a l ok :
  (refused a l /\ new_group H a l ok = (Refused, a)) \/
  (legal (a_world a) l /\ ~ In (a_rank a) l /\ new_group H a l ok = (NotMember, a)) \/
  (legal (a_world a) l /\ In (a_rank a) l /\ Z.of_nat (length l) = a_world a /\ new_group H a l ok = (Name (lit "default"), a)) \/
  (legal (a_world a) l /\ In (a_rank a) l /\ Z.of_nat (length l) < a_world a /\
     new_group H a l ok =
     let n := H (digest_input (a_backend a) l) in
     match lookup n (a_groups a) with
     | Some _ => (Name n, a)
     | None => if ok then (Name n, {| a_rank := a_rank a; a_world := a_world a; a_backend := a_backend a;
                  a_groups := (n, {| pg_rank := position (a_rank a) l; pg_size := Z.of_nat (length l) |}) :: a_groups a |})
               else (Failed, a) end).
Proof.
  unfold new_group.
  destruct (Z.leb_spec (Z.of_nat (length l)) (a_world a)) as [L|L]; cbn [negb].
  2:{ left. split; auto. unfold refused. destruct (Z_lt_le_dec (a_world a) 0); [now left|right].
      intros C. apply legal_length in C; lia. }
  destruct (forallb _ l) eqn:F; cbn [negb].
  2:{ left. split; auto. right. intros (ND & R). enough (forallb (fun r => (r <? a_world a) && (0 <=? r)) l = true) by congruence.
      apply forallb_forall. intros x I. specialize (R x I). lia. }
  rewrite forallb_forall in F.
  destruct (Nat.eqb_spec (length (nodup Z.eq_dec l)) (length l)) as [D|D]; cbn [negb].
  2:{ left. split; auto. right. intros (ND & _). now apply nodup_len in ND. }
  apply nodup_len in D.
  assert (LG : legal (a_world a) l). { split; auto. intros r I. specialize (F r I). lia. }
  destruct (existsb (Z.eqb (a_rank a)) l) eqn:X; cbn [negb].
  2:{ right; left. split; [auto|split; auto]. intros C.
      enough (existsb (Z.eqb (a_rank a)) l = true) by congruence. apply existsb_exists. exists (a_rank a). split; auto. lia. }
  apply existsb_exists in X as (x & I & E). apply Z.eqb_eq in E. subst x.
  right; right.
  destruct (Z.eqb_spec (Z.of_nat (length l)) (a_world a)) as [W|W]; [left; auto|right].
  split; [auto|split; [auto|split; [lia|]]].
  unfold process_group_name. fold (digest_input (a_backend a) l).
  rewrite index_position.
  - rewrite <- (position_perm _ _ _ (sorted_perm l)).
    replace (length (sorted l)) with (length l) by apply Permutation_length, sorted_perm. reflexivity.
  - apply sorted_asc.
  - eapply Permutation_NoDup; [apply sorted_perm|auto].
  - eapply Permutation_in; [apply sorted_perm|auto].
Qed.

(** *** Over the life of an actor *)
Definition asked (h : list (list Z * answer)) : list (list Z) := map fst h.
Record inv H (a : actor) (h : list (list Z * answer)) : Prop := {
  i_default : lookup (lit "default") (a_groups a) = Some {| pg_rank := a_rank a; pg_size := a_world a |};
  i_keys : forall n p, lookup n (a_groups a) = Some p -> n = lit "default" \/ exists l, In (l, Name n) h /\ Z.of_nat (length l) <> a_world a;
  i_ans : forall l n, In (l, Name n) h -> legal (a_world a) l /\ In (a_rank a) l /\ n = (if Z.eq_dec (Z.of_nat (length l)) (a_world a) then lit "default" else H (digest_input (a_backend a) l)) /\
     lookup n (a_groups a) = Some {| pg_rank := position (a_rank a) l; pg_size := Z.of_nat (length l) |} }.
Lemma digest_not_default H t : hex40 H -> H t <> lit "default".
Proof. intros X E. specialize (X t). rewrite E in X. discriminate. Qed.
Lemma life_same H a h l ok ans a' : life H a h -> new_group H a l ok = (ans, a') ->
  a_rank a' = a_rank a /\ a_world a' = a_world a /\ a_backend a' = a_backend a.
Proof.
  intros _ E. destruct (new_group_cases H a l ok) as [(_ & X)|[(_ & _ & X)|[(_ & _ & _ & X)|(_ & _ & _ & X)]]];
    rewrite E in X; cbv zeta in X; [| | |destruct (lookup _ _); [|destruct ok]]; inversion X; subst; auto.
Qed.
Lemma life_inv H a h : hex40 H -> life H a h -> no_collision H (a_backend a) (asked h) -> inv H a h.
Proof.
  intros X L. induction L as [r w b|a h l ok a' ans L IH E]; intros NC.
  - split; cbn [create a_groups lookup a_rank a_world a_backend].
    + reflexivity.
    + intros n p. destruct (text_eqb_spec n (lit "default")); [now left|discriminate].
    + intros ? ? [].
  - destruct (life_same _ _ _ _ _ _ _ L E) as (Er & Ew & Eb).
    assert (I : inv H a h).
    { apply IH. rewrite <- Eb. intros m k Im Ik. apply NC; now right. }
    destruct I as [D K A].
    assert (Same : a' = a -> (forall n, ans = Name n -> legal (a_world a) l /\ In (a_rank a) l /\ n = (if Z.eq_dec (Z.of_nat (length l)) (a_world a) then lit "default" else H (digest_input (a_backend a) l)) /\
     lookup n (a_groups a) = Some {| pg_rank := position (a_rank a) l; pg_size := Z.of_nat (length l) |}) -> inv H a' ((l, ans) :: h)).
    { intros -> W. split; auto.
      - intros n p G. destruct (K n p G) as [|(m & Im & Nm)]; [now left|right; exists m; split; auto; now right].
      - intros m n [J|J]; [inversion J; subst; auto|auto]. }
    destruct (new_group_cases H a l ok) as [(_ & Y)|[(_ & _ & Y)|[(LG & I & W & Y)|(LG & I & W & Y)]]]; rewrite E in Y.
    + inversion Y; subst. apply Same; [auto|discriminate].
    + inversion Y; subst. apply Same; [auto|discriminate].
    + inversion Y; subst. apply Same; [auto|]. intros n Q. inversion Q; subst.
      split; [auto|split; [auto|]]. destruct (Z.eq_dec _ _); [|congruence].
      split; [reflexivity|]. rewrite W. etransitivity; [exact D|]. now rewrite (position_world _ _ _ LG W I).
    + cbv zeta in Y. destruct (lookup (H (digest_input (a_backend a) l)) (a_groups a)) as [p|] eqn:G; [|destruct ok].
      * inversion Y; subst. apply Same; [auto|]. intros n Q. inversion Q; subst.
        split; [auto|split; [auto|]]. destruct (Z.eq_dec _ _); [lia|]. split; auto.
        destruct (K _ _ G) as [C|(m & Im & Nm)]; [now apply digest_not_default in C|].
        destruct (A _ _ Im) as (LGm & Ir & Hn & Gm). destruct (Z.eq_dec _ _); [congruence|].
        assert (P : Permutation m l).
        { apply (digest_inj (a_backend a)).
          - intros ->. destruct Ir.
          - intros ->. destruct I.
          - apply NC; [right; apply in_map_iff; exists (m, Name (H (digest_input (a_backend a) l))); auto|now left|auto]. }
        rewrite Gm. now rewrite (position_perm _ _ _ P), (Permutation_length P).
      * inversion Y; subst. clear Y. split; cbn [a_groups lookup a_rank a_world a_backend].
        -- destruct (text_eqb_spec (lit "default") (H (digest_input (a_backend a) l))) as [C|_].
           ++ symmetry in C. now apply digest_not_default in C.
           ++ exact D.
        -- intros n p. destruct (text_eqb_spec n (H (digest_input (a_backend a) l))) as [->|N].
           ++ intros _. right. exists l. split; [now left|lia].
           ++ intros G'. destruct (K n p G') as [|(m & Im & Nm)]; [now left|right; exists m; split; auto; now right].
        -- intros m n [J|J].
           ++ inversion J; subst. split; [auto|split; [auto|]]. destruct (Z.eq_dec _ _); [lia|].
              split; [auto|]. now rewrite text_eqb_refl.
           ++ destruct (A _ _ J) as (Q1 & Q2 & Q3 & Q4). split; [auto|split; [auto|split; [auto|]]].
              destruct (text_eqb_spec n (H (digest_input (a_backend a) l))) as [->|N]; [congruence|exact Q4].
      * inversion Y; subst. apply Same; [auto|discriminate].
Qed.

(** ** Theorems *)

(** The list is refused exactly when it is illegal; a refused call changes nothing.  (A world
    of negative size, which nothing in the code prevents, refuses every list.) *)
Theorem C35_illegal_lists_refused : forall H a l ok,
  0 <= a_world a ->
  (fst (new_group H a l ok) = Refused <-> ~ legal (a_world a) l) /\
  (fst (new_group H a l ok) = Refused -> snd (new_group H a l ok) = a).
Proof.
  intros H a l ok W.
  destruct (new_group_cases H a l ok) as [(R & X)|[(L & _ & X)|[(L & _ & _ & X)|(L & _ & _ & X)]]]; rewrite X; cbv zeta; cbn [fst snd].
  - split; auto. split; auto. intros _. destruct R; [lia|auto].
  - split; auto. split; [discriminate|intros C; contradiction].
  - split; auto. split; [discriminate|intros C; contradiction].
  - destruct (lookup _ _); [|destruct ok]; cbn [fst snd]; (split; [split; [discriminate|intros C; contradiction]|discriminate]).
Qed.

(** None is the answer exactly for a legal list without the actor's own rank, and nothing is
    created. *)
Theorem C35_non_members_get_none : forall H a l ok,
  0 <= a_world a ->
  (fst (new_group H a l ok) = NotMember <-> legal (a_world a) l /\ ~ In (a_rank a) l) /\
  (fst (new_group H a l ok) = NotMember -> snd (new_group H a l ok) = a).
Proof.
  intros H a l ok W.
  destruct (new_group_cases H a l ok) as [(R & X)|[(L & N & X)|[(L & I & _ & X)|(L & I & _ & X)]]]; rewrite X; cbv zeta; cbn [fst snd].
  - split; [|discriminate]. split; [discriminate|]. intros (C & _). destruct R; [lia|contradiction].
  - split; auto. split; auto.
  - split; [|discriminate]. split; [discriminate|]. intros (_ & C). contradiction.
  - destruct (lookup _ _); [|destruct ok]; cbn [fst snd]; (split; [split; [discriminate|intros (_ & C); contradiction]|discriminate]).
Qed.

(** A member gets a name whenever the native group can be created; if that fails, nothing is
    left behind. *)
Theorem C35_members_get_a_name : forall H a l,
  legal (a_world a) l -> In (a_rank a) l ->
  (exists n, fst (new_group H a l true) = Name n) /\
  (fst (new_group H a l false) = Failed -> snd (new_group H a l false) = a).
Proof.
  intros H a l L I.
  assert (W : 0 <= a_world a) by (eapply life_world_nonneg; [exact L|intros ->; destruct I]).
  split.
  - destruct (new_group_cases H a l true) as [(R & X)|[(_ & N & X)|[(_ & _ & _ & X)|(_ & _ & _ & X)]]]; rewrite X; cbv zeta.
    + destruct R; [lia|contradiction].
    + contradiction.
    + cbn [fst]; eauto.
    + destruct (lookup _ _); cbn [fst]; eauto.
  - destruct (new_group_cases H a l false) as [(R & X)|[(_ & N & X)|[(_ & _ & _ & X)|(_ & _ & _ & X)]]]; rewrite X; cbv zeta; cbn [fst snd]; try discriminate.
    destruct (lookup _ _); cbn [fst snd]; auto; discriminate.
Qed.

(** Whenever an actor, in whatever life, was given a name, the group under that name has
    the size of the list, and the actor's rank in it is the number of members below it. *)
Theorem C35_rank_and_size : forall H a h l n,
  hex40 H -> life H a h -> no_collision H (a_backend a) (asked h) ->
  In (l, Name n) h ->
  legal (a_world a) l /\ In (a_rank a) l /\
  process_group a n = Some {| pg_rank := position (a_rank a) l; pg_size := Z.of_nat (length l) |}.
Proof.
  intros H a h l n X L NC I. destruct (life_inv H a h X L NC) as [_ _ A].
  destruct (A l n I) as (L1 & L2 & _ & G). auto.
Qed.

(** Two actors of the same world that named a group of the same members, in whatever order the
    members were listed and whatever else they did before or after, have the same name. *)
Lemma name_function H a h l n : hex40 H -> life H a h -> In (l, Name n) h ->
  n = if Z.eq_dec (Z.of_nat (length l)) (a_world a) then lit "default" else H (digest_input (a_backend a) l).
Proof.
  intros X L. induction L as [r w b|a h k ok a' ans L IH E]; [intros []|].
  destruct (life_same _ _ _ _ _ _ _ L E) as (Er & Ew & Eb). rewrite Ew, Eb. intros [J|J]; [|auto].
  inversion J; subst. clear J.
  destruct (new_group_cases H a l ok) as [(_ & Y)|[(_ & _ & Y)|[(_ & _ & W & Y)|(_ & _ & W & Y)]]]; rewrite E in Y; cbv zeta in Y.
  - discriminate.
  - discriminate.
  - destruct (Z.eq_dec _ _); [congruence|contradiction].
  - destruct (Z.eq_dec _ _); [lia|]. destruct (lookup _ _); [|destruct ok]; congruence.
Qed.
Lemma answer_legal H a h l n : life H a h -> In (l, Name n) h -> legal (a_world a) l /\ In (a_rank a) l.
Proof.
  intros L. induction L as [r w b|a h k ok a' ans L IH E]; [intros []|].
  destruct (life_same _ _ _ _ _ _ _ L E) as (Er & Ew & Eb). rewrite Ew, Er. intros [J|J]; [|auto].
  inversion J; subst. clear J.
  destruct (new_group_cases H a l ok) as [(_ & Y)|[(_ & _ & Y)|[(? & ? & W & Y)|(? & ? & W & Y)]]]; rewrite E in Y; try discriminate; auto.
Qed.
Theorem C35_members_agree_on_the_name : forall H a h l n b k m p,
  hex40 H -> life H a h -> life H b k ->
  a_world a = a_world b -> a_backend a = a_backend b ->
  In (l, Name n) h -> In (m, Name p) k -> same_members l m -> n = p.
Proof.
  intros H a h l n b k m p X La Lb Ew Eb Il Im E.
  pose proof (answer_legal _ _ _ _ _ La Il) as ((N1 & _) & _).
  pose proof (answer_legal _ _ _ _ _ Lb Im) as ((N2 & _) & _).
  assert (P : Permutation l m) by (apply same_perm; auto).
  rewrite (name_function _ _ _ _ _ X La Il), (name_function _ _ _ _ _ X Lb Im).
  now rewrite (digest_perm _ _ _ P), (Permutation_length P), Ew, Eb.
Qed.

(** Groups with different members have different names, at the same actor or at different
    ones, as long as the two digest inputs do not collide. *)
Theorem C35_distinct_groups_distinct_names : forall H a h l n b k m p,
  hex40 H -> life H a h -> life H b k ->
  a_world a = a_world b -> a_backend a = a_backend b ->
  no_collision H (a_backend a) [l; m] ->
  In (l, Name n) h -> In (m, Name p) k -> ~ same_members l m -> n <> p.
Proof.
  intros H a h l n b k m p X La Lb Ew Eb NC Il Im E Q. subst p. apply E. clear E.
  destruct (answer_legal _ _ _ _ _ La Il) as (L1 & I1). destruct (answer_legal _ _ _ _ _ Lb Im) as (L2 & I2).
  pose proof (name_function _ _ _ _ _ X La Il) as F1. pose proof (name_function _ _ _ _ _ X Lb Im) as F2.
  rewrite <- Ew, <- Eb in F2. rewrite <- Ew in L2. rewrite F2 in F1.
  assert (P : Permutation l m -> same_members l m).
  { intros P r. split; apply Permutation_in; [auto|now apply Permutation_sym]. }
  assert (Full : forall s r, legal (a_world a) s -> Z.of_nat (length s) = a_world a -> In r s <-> 0 <= r < a_world a).
  { intros s r (ND & R) W. split; [auto|]. intros B.
    assert (J : incl (map Z.of_nat (seq 0 (length s))) s).
    { apply NoDup_length_incl; [auto|..].
      - rewrite map_length, seq_length. lia.
      - intros x Ix. specialize (R x Ix). apply in_map_iff. exists (Z.to_nat x). split; [lia|]. apply in_seq. lia. }
    apply J. apply in_map_iff. exists (Z.to_nat r). split; [lia|]. apply in_seq. lia. }
  destruct (Z.eq_dec (Z.of_nat (length m)) (a_world a)) as [Wm|Wm], (Z.eq_dec (Z.of_nat (length l)) (a_world a)) as [Wl|Wl].
  - intros r. now rewrite !Full.
  - symmetry in F1. now apply digest_not_default in F1.
  - now apply digest_not_default in F1.
  - apply P, (digest_inj (a_backend a)); [intros ->; destruct I1|intros ->; destruct I2|].
    apply NC; [now left|now (right; left)|auto].
Qed.

(** All members together: take any family of actors, one for each rank of the group, with any
    lives, that all got a name for the group.  There is one name; every member sees the
    same size [n]; and each of the ranks [0..n-1] belongs to exactly one member. *)
Theorem C35_group_ranks_partition : forall H world bk (A : Z -> actor) (h : Z -> list (list Z * answer)) (listed : Z -> list Z) (name : Z -> text) group,
  hex40 H -> legal world group ->
  (forall r, In r group ->
     life H (A r) (h r) /\ a_rank (A r) = r /\ a_world (A r) = world /\ a_backend (A r) = bk /\
     no_collision H bk (asked (h r)) /\
     In (listed r, Name (name r)) (h r) /\ same_members (listed r) group) ->
  (forall r s, In r group -> In s group -> name r = name s) /\
  (forall r, In r group -> exists p, process_group (A r) (name r) = Some p /\
     pg_size p = Z.of_nat (length group) /\ 0 <= pg_rank p < pg_size p) /\
  (forall k, 0 <= k < Z.of_nat (length group) ->
     exists r, In r group /\ option_map pg_rank (process_group (A r) (name r)) = Some k /\
       forall s, In s group -> option_map pg_rank (process_group (A s) (name s)) = Some k -> s = r).
Proof.
  intros H w bk A h listed name g X LG F.
  assert (G : forall r, In r g -> process_group (A r) (name r) = Some {| pg_rank := position r g; pg_size := Z.of_nat (length g) |}).
  { intros r I. destruct (F r I) as (L & Er & Ew & Eb & NC & J & E). subst bk.
    destruct (C35_rank_and_size H _ _ _ _ X L NC J) as ((ND & _) & _ & ->).
    assert (P : Permutation (listed r) g) by (apply same_perm; auto; apply LG).
    now rewrite Er, (position_perm _ _ _ P), (Permutation_length P). }
  split; [|split].
  - intros r s I J. destruct (F r I) as (L & Er & Ew & Eb & NC & J1 & E1). destruct (F s J) as (L2 & Er2 & Ew2 & Eb2 & NC2 & J2 & E2).
    apply (C35_members_agree_on_the_name H _ _ _ _ _ _ _ _ X L L2 ltac:(congruence) ltac:(congruence) J1 J2).
    intros x. now rewrite (E1 x), (E2 x).
  - intros r I. rewrite (G r I). eexists. split; [reflexivity|]. cbn [pg_size pg_rank]. split; auto.
    pose proof (position_lt_length r g I). pose proof (position_bound r g). lia.
  - intros k B. destruct (position_onto g (proj1 LG) k B) as (r & I & P). exists r. split; auto.
    rewrite (G r I). cbn [option_map pg_rank]. split; [now rewrite P|].
    intros s J. rewrite (G s J). cbn [option_map pg_rank]. intros Q. inversion Q.
    apply (position_inj s r g); auto. congruence.
Qed.

(** ** The hypotheses can be met *)
Module Demo.
  (** A toy digest of 40 characters, without collisions on the inputs used here: the input
      padded with dots. *)
  Definition pad (t : text) : text := firstn 40 (t ++ repeat "."%char 40).
  Lemma pad_hex : hex40 pad.
  Proof. intros t. unfold pad. rewrite firstn_length, app_length, repeat_length. lia. Qed.

  Definition calls : list (list Z * bool) := [([3; 1; 10], true); ([1; 2; 2], true); ([0; 2], true); ([10; 3; 1], true); ([1; 5], false)].
  Fixpoint run (a : actor) (cs : list (list Z * bool)) (h : list (list Z * answer)) : actor * list (list Z * answer) :=
    match cs with
    | [] => (a, h)
    | (l, ok) :: cs => let (ans, a') := new_group pad a l ok in run a' cs ((l, ans) :: h)
    end.
  Lemma run_life cs : forall a h, life pad a h -> life pad (fst (run a cs h)) (snd (run a cs h)).
  Proof.
    induction cs as [|(l, ok) cs IH]; intros a h L; cbn [run]; auto.
    destruct (new_group pad a l ok) as (ans, a') eqn:E. apply IH. econstructor; eauto.
  Qed.
  Definition one := run (create 1 12 Gloo) calls [].
  Definition ten := run (create 10 12 Gloo) calls [].

  Definition the_name : text := pad (lit "gloo1_3_10").
  Example one_life : life pad (fst one) (snd one).
  Proof. apply run_life. constructor. Qed.
  Example one_answers : snd one = [([1; 5], Failed); ([10; 3; 1], Name the_name); ([0; 2], NotMember); ([1; 2; 2], Refused); ([3; 1; 10], Name the_name)].
  Proof. vm_compute. reflexivity. Qed.
  Example one_groups : process_group (fst one) the_name = Some {| pg_rank := 0; pg_size := 3 |}.
  Proof. vm_compute. reflexivity. Qed.
  Example ten_groups : process_group (fst ten) the_name = Some {| pg_rank := 2; pg_size := 3 |}.
  Proof. vm_compute. reflexivity. Qed.
  Example legal_group : legal 12 [3; 1; 10].
  Proof.
    split; [repeat (apply NoDup_cons; [cbn; lia|]); apply NoDup_nil|].
    intros r I. repeat destruct I as [<-|I]; try lia. destruct I.
  Qed.
  Example one_no_collision : no_collision pad (a_backend (fst one)) (asked (snd one)).
  Proof.
    intros l m Il Im. vm_compute in Il, Im.
    repeat destruct Il as [<-|Il]; try destruct Il; repeat destruct Im as [<-|Im]; try destruct Im;
      vm_compute; intros E; (reflexivity || discriminate E).
  Qed.
  (** The partition theorem applies: all three members, each asked in an order of its own. *)
  Definition A (r : Z) := fst (new_group pad (create r 12 Gloo) [r; (if r =? 1 then 3 else 1); (if r =? 10 then 3 else 10)] true).
  Definition actor_of (r : Z) := snd (new_group pad (create r 12 Gloo) [r; (if r =? 1 then 3 else 1); (if r =? 10 then 3 else 10)] true).
  Example three_members : forall r, In r [3; 1; 10] ->
     exists h n l, life pad (actor_of r) h /\ a_rank (actor_of r) = r /\ a_world (actor_of r) = 12 /\ a_backend (actor_of r) = Gloo /\
     no_collision pad Gloo (asked h) /\ In (l, Name n) h /\ same_members l [3; 1; 10].
  Proof.
    intros r I.
    exists [([r; (if r =? 1 then 3 else 1); (if r =? 10 then 3 else 10)], A r)], the_name, [r; (if r =? 1 then 3 else 1); (if r =? 10 then 3 else 10)].
    assert (N : A r = Name the_name) by (repeat destruct I as [<-|I]; [..|destruct I]; vm_compute; reflexivity).
    split; [|split; [|split; [|split; [|split; [|split]]]]].
    - apply (life_call pad (create r 12 Gloo) [] _ true); [constructor|]. unfold A, actor_of. now destruct (new_group pad (create r 12 Gloo) _ true).
    - repeat destruct I as [<-|I]; [..|destruct I]; vm_compute; reflexivity.
    - repeat destruct I as [<-|I]; [..|destruct I]; vm_compute; reflexivity.
    - repeat destruct I as [<-|I]; [..|destruct I]; vm_compute; reflexivity.
    - intros l m [<-|[]] [<-|[]]. auto.
    - left. now rewrite N.
    - intros x. repeat destruct I as [<-|I]; [..|destruct I]; cbn; lia.
  Qed.
End Demo.

Print Assumptions C35_illegal_lists_refused.
Print Assumptions C35_non_members_get_none.
Print Assumptions C35_members_get_a_name.
Print Assumptions C35_rank_and_size.
Print Assumptions C35_members_agree_on_the_name.
Print Assumptions C35_distinct_groups_distinct_names.
Print Assumptions C35_group_ranks_partition.
