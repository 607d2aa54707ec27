(** * C39: the start-up hand-over through shared memory is never torn

    How to read.  One process runs [put_object seq o] on a memory [m0] whose sequence field
    does not yet hold [seq]; the other polls with [get_object seq].  [steps seq s t]: from
    [s], the two processes can reach [t] by any interleaving of their byte accesses; a writer
    that dies is a writer that takes no more steps.  [rd t = Done o]: a call of get has
    returned [o]. *)
From Coq Require Import List ZArith Lia Bool.
From Verif Require Import ShmModel.
Import ListNotations.
Open Scope Z_scope.

(** ** Specification *)
Definition seq_field (m : memory) : Z := unpack [m 0; m 1; m 2; m 3].
Definition start (m : memory) (w : list (list (Z * Z))) : state := {| mem := m; todo_w := w; rd := Idle |}.
Definition u32 (n : Z) : Prop := 0 <= n < 4294967296.

(** ** Proofs *)
Lemma unpack_pack n : u32 n -> unpack (pack n) = n.
Proof.
  unfold u32, pack, unpack. intros B.
  pose proof (Z.div_mod n 256 ltac:(lia)). pose proof (Z.div_mod (n / 256) 256 ltac:(lia)).
  pose proof (Z.div_mod (n / 65536) 256 ltac:(lia)).
  assert (E1 : n / 65536 = n / 256 / 256) by (rewrite Z.div_div by lia; reflexivity).
  assert (E2 : n / 16777216 = n / 65536 / 256) by (rewrite Z.div_div by lia; reflexivity).
  assert (0 <= n / 16777216 < 256). { split; [apply Z.div_pos; lia|apply Z.div_lt_upper_bound; lia]. }
  rewrite (Z.mod_small (n / 16777216)) by lia. lia.
Qed.

Lemma slice_writes_In base bs a v : In (a, v) (slice_writes base bs) ->
  base <= a < base + Z.of_nat (length bs) /\ nth_error bs (Z.to_nat (a - base)) = Some v.
Proof.
  revert base. induction bs as [|b bs IH]; intros base; cbn [slice_writes length]; [intros []|].
  intros [E|I].
  - inversion E; subst. split; [lia|]. rewrite Z.sub_diag. reflexivity.
  - apply IH in I as (B & N). split; [lia|].
    replace (Z.to_nat (a - base)) with (S (Z.to_nat (a - (base + 1)))) by lia. exact N.
Qed.
Lemma In_slice_writes base bs a : base <= a < base + Z.of_nat (length bs) -> exists v, In (a, v) (slice_writes base bs).
Proof.
  revert base. induction bs as [|b bs IH]; intros base; cbn [slice_writes length]; [lia|].
  intros B. destruct (Z.eq_dec a base) as [->|N]; [exists b; now left|].
  destruct (IH (base + 1) ltac:(lia)) as (v & I). exists v. now right.
Qed.
Lemma In_slice base n a : In a (slice base n) <-> base <= a < base + Z.of_nat n.
Proof.
  revert base. induction n as [|n IH]; intros base; cbn [slice].
  - split; [intros []|lia].
  - cbn [In]. rewrite IH. lia.
Qed.
Lemma slice_value (f : Z -> Z) base bs :
  (forall a v, In (a, v) (slice_writes base bs) -> f a = v) -> map f (slice base (length bs)) = bs.
Proof.
  revert base. induction bs as [|b bs IH]; intros base F; cbn [slice map length]; auto.
  f_equal; [apply F; now left|]. apply IH. intros a v I. apply F. now right.
Qed.
Lemma map_slice_ext (f g : Z -> Z) base n : (forall a, base <= a < base + Z.of_nat n -> f a = g a) ->
  map f (slice base n) = map g (slice base n).
Proof. intros E. apply map_ext_in. intros a I. apply In_slice in I. auto. Qed.

Lemma value_In got a : (exists v, In (a, v) got) -> In (a, value a got) got.
Proof.
  induction got as [|(b, w) got IH]; intros (v & I); [destruct I|]. cbn [value].
  destruct (Z.eqb_spec a b) as [->|N]; [now left|]. right. apply IH.
  destruct I as [E|I]; [congruence|eauto].
Qed.

(** The pending writes. *)
Definition pend (w : list (list (Z * Z))) (a v : Z) : Prop := exists st, In st w /\ In (a, v) st.
Lemma pend_cons st w a v : pend (st :: w) a v <-> In (a, v) st \/ pend w a v.
Proof.
  unfold pend. split.
  - intros (s & [<-|I] & J); [now left|right; eauto].
  - intros [I|(s & I & J)]; [exists st; split; [now left|auto]|exists s; split; [now right|auto]].
Qed.


(** The byte writes of the three statements. *)
Definition W1 (payload : list Z) := slice_writes 4 (pack (Z.of_nat (length payload))).
Definition W2 (payload : list Z) := slice_writes 8 payload.
Definition W3 (seq : Z) := slice_writes 0 (pack seq).
Definition W (seq : Z) (payload : list Z) := [W1 payload; W2 payload; W3 seq].

Lemma pend_nil a v : ~ pend [] a v.
Proof. intros (x & [] & _). Qed.
Lemma W_fun seq payload a v v' : pend (W seq payload) a v -> pend (W seq payload) a v' -> v = v'.
Proof.
  assert (G : forall b bs c cs, (forall x, b <= x < b + Z.of_nat (length bs) -> c <= x < c + Z.of_nat (length cs) -> False) ->
     In (a, v) (slice_writes b bs) -> In (a, v') (slice_writes c cs) -> v = v').
  { intros b bs c cs F I J. apply slice_writes_In in I as (I & _), J as (J & _). destruct (F a); auto. }
  assert (D : forall b bs, In (a, v) (slice_writes b bs) -> In (a, v') (slice_writes b bs) -> v = v').
  { intros b bs I J. apply slice_writes_In in I as (_ & I), J as (_ & J). congruence. }
  unfold W. rewrite !pend_cons.
  intros [I|[I|[I|I]]] [J|[J|[J|J]]]; try (now apply pend_nil in I); try (now apply pend_nil in J);
    first [exact (D _ _ I J) | refine (G _ _ _ _ _ I J); cbn [length pack]; lia].
Qed.

Definition part (p full : list (Z * Z)) : Prop := incl p full /\ NoDup (map fst p).
Lemma slice_writes_nodup base bs : NoDup (map fst (slice_writes base bs)).
Proof.
  revert base. induction bs as [|b bs IH]; intros base; cbn [slice_writes map fst]; constructor; auto.
  intros C. apply in_map_iff in C as ((a, v) & E & I). cbn in E. subst. apply slice_writes_In in I as (B & _). lia.
Qed.
Lemma part_full base bs : part (slice_writes base bs) (slice_writes base bs).
Proof. split; [apply incl_refl|apply slice_writes_nodup]. Qed.
Lemma part_del l1 a v l2 full : part (l1 ++ (a, v) :: l2) full -> part (l1 ++ l2) full.
Proof.
  intros (I & N). split.
  - intros x J. apply I. apply in_app_iff. apply in_app_iff in J as [J|J]; [now left|right; now right].
  - rewrite map_app in *. cbn [map] in N. eapply NoDup_remove_1, N.
Qed.

Inductive shape (seq : Z) (payload : list Z) : list (list (Z * Z)) -> Prop :=
| sh1 : forall p, part p (W1 payload) -> shape seq payload [p; W2 payload; W3 seq]
| sh2 : forall p, part p (W2 payload) -> shape seq payload [p; W3 seq]
| sh3 : forall p, part p (W3 seq) -> shape seq payload [p]
| sh4 : shape seq payload [].

Lemma shape_start seq payload : shape seq payload (W seq payload).
Proof. apply sh1. apply part_full. Qed.
Lemma shape_sub seq payload w a v : shape seq payload w -> pend w a v -> pend (W seq payload) a v.
Proof.
  unfold W. intros [p (I & _)|p (I & _)|p (I & _)|]; rewrite ?pend_cons; pose proof (pend_nil a v);
    try specialize (I (a, v)); tauto.
Qed.
(** Once a statement has begun, the earlier ones are finished. *)
Lemma shape_cases seq payload w : shape seq payload w ->
  (forall a v, pend w a v -> 0 <= a < 4) \/ (forall a, 0 <= a < 4 -> exists v, pend w a v).
Proof.
  assert (F : forall a x, 0 <= a < 4 -> exists v, pend (W3 seq :: x) a v).
  { intros a x B. destruct (In_slice_writes 0 (pack seq) a) as (v & I); [cbn [length pack]; lia|].
    exists v. rewrite pend_cons. now left. }
  intros [p I|p I|p I|].
  - right. intros a B. destruct (F a [] B) as (v & Q). exists v. rewrite !pend_cons. rewrite pend_cons in Q. tauto.
  - right. intros a B. destruct (F a [] B) as (v & Q). exists v. rewrite !pend_cons. rewrite pend_cons in Q. tauto.
  - left. intros a v. rewrite pend_cons. intros [Q|Q]; [|now apply pend_nil in Q].
    apply I in Q. apply slice_writes_In in Q as (B & _). cbn [length pack] in B. lia.
  - left. intros a v Q. now apply pend_nil in Q.
Qed.
Lemma shape_write seq payload l1 a v l2 rest : shape seq payload ((l1 ++ (a, v) :: l2) :: rest) ->
  shape seq payload ((l1 ++ l2) :: rest) /\
  (forall b u, pend ((l1 ++ l2) :: rest) b u <-> pend ((l1 ++ (a, v) :: l2) :: rest) b u /\ b <> a) /\
  pend ((l1 ++ (a, v) :: l2) :: rest) a v.
Proof.
  intros Sh.
  assert (Pa : pend ((l1 ++ (a, v) :: l2) :: rest) a v).
  { rewrite pend_cons. left. apply in_app_iff. right. now left. }
  assert (Here : ~ In a (map fst (l1 ++ l2))).
  { assert (N : NoDup (map fst (l1 ++ (a, v) :: l2))) by (inversion Sh as [p (_ & N)|p (_ & N)|p (_ & N)|]; subst; exact N).
    rewrite map_app in *. cbn [map fst] in N. now apply NoDup_remove_2 in N. }
  assert (There : forall u, ~ pend rest a u).
  { intros u Q.
    assert (R : forall b bs, incl (l1 ++ (a, v) :: l2) (slice_writes b bs) -> b <= a < b + Z.of_nat (length bs)).
    { intros b bs I. eapply slice_writes_In, I. apply in_app_iff. right. now left. }
    unfold W1, W2, W3 in Sh.
    inversion Sh as [p (I & N) E|p (I & N) E|p (I & N) E|]; subst rest; rewrite ?pend_cons in Q; apply R in I;
      pose proof (pend_nil a u) as PN; pose proof (slice_writes_In 8 payload a u) as J8;
      pose proof (slice_writes_In 0 (pack seq) a u) as J0; cbn [length pack] in *;
      [destruct Q as [Q|[Q|Q]]; [apply J8 in Q|apply J0 in Q|contradiction]|destruct Q as [Q|Q]; [apply J0 in Q|contradiction]|contradiction];
      lia. }
  split; [|split; [|exact Pa]].
  - inversion Sh; subst; [apply sh1|apply sh2|apply sh3]; eapply part_del; eauto.
  - intros b u. rewrite !pend_cons. split.
    + intros [I|Q].
      * split; [left|intros ->; apply Here, in_map_iff; exists (a, u); auto].
        apply in_app_iff. apply in_app_iff in I as [I|I]; [now left|right; now right].
      * split; [now right|]. intros ->. eapply There; eauto.
    + intros ([I|Q] & Nb); [|now right]. left. apply in_app_iff. apply in_app_iff in I as [I|[E|I]]; [now left|congruence|now right].
Qed.

Definition untouched (seq : Z) (payload : list Z) (a : Z) := forall v, ~ pend (W seq payload) a v.

(** Writer invariant. *)
Record wr (seq : Z) (m0 : memory) (payload : list Z) (m : memory) (w : list (list (Z * Z))) : Prop := {
  wr_shape : shape seq payload w;
  wr_done : forall a v, pend (W seq payload) a v -> ~ pend w a v -> m a = v;
  wr_old : forall a, (exists v, pend w a v) \/ untouched seq payload a -> m a = m0 a }.

(** The message is complete in memory, except possibly for bytes of the sequence field. *)
Definition complete (w : list (list (Z * Z))) : Prop := forall a v, pend w a v -> 0 <= a < 4.

Definition rd_ok (seq : Z) (m0 : memory) (payload : list Z) (w : list (list (Z * Z))) (r : reader) : Prop :=
  match r with
  | Idle => True
  | InSeq todo got => (forall a, 0 <= a < 4 -> In a todo \/ exists v, In (a, v) got) /\
                      (forall a, In a todo -> 0 <= a < 4) /\
                      (forall a v, In (a, v) got -> v <> m0 a -> complete w)
  | InSize todo got => complete w /\ (forall a, 4 <= a < 8 -> In a todo \/ exists v, In (a, v) got) /\
                      (forall a, In a todo -> 4 <= a < 8) /\
                      (forall a v, In (a, v) got -> pend (W seq payload) a v)
  | InData size todo got => complete w /\ size = Z.of_nat (length payload) /\
                      (forall a, 8 <= a < 8 + size -> In a todo \/ exists v, In (a, v) got) /\
                      (forall a, In a todo -> 8 <= a < 8 + size) /\
                      (forall a v, In (a, v) got -> pend (W seq payload) a v)
  | Done o => o = None \/ o = Some payload
  end.

Lemma complete_read seq m0 payload m w a : wr seq m0 payload m w -> complete w ->
  4 <= a < 8 + Z.of_nat (length payload) -> pend (W seq payload) a (m a).
Proof.
  intros [Sh D _] C B.
  assert (E : exists v, pend (W seq payload) a v).
  { unfold W. destruct (Z_lt_le_dec a 8).
    - destruct (In_slice_writes 4 (pack (Z.of_nat (length payload))) a) as (v & I); [cbn [length pack]; lia|].
      exists v. rewrite pend_cons. now left.
    - destruct (In_slice_writes 8 payload a) as (v & I); [lia|]. exists v. rewrite !pend_cons. right. now left. }
  destruct E as (v & P). rewrite (D a v P); auto. intros Q. apply C in Q. lia.
Qed.
Lemma complete_sub w w' : (forall a v, pend w' a v -> pend w a v) -> complete w -> complete w'.
Proof. intros Sb C a v P. eapply C, Sb, P. Qed.
Lemma rd_ok_sub seq m0 payload w w' r : (forall a v, pend w' a v -> pend w a v) ->
  rd_ok seq m0 payload w r -> rd_ok seq m0 payload w' r.
Proof.
  intros Sb. destruct r; cbn; auto.
  - intros (A & B & C). split; [auto|split; [auto|]]. intros a v I N. eapply complete_sub; eauto.
  - intros (A & B). split; [|auto]. eapply complete_sub; eauto.
  - intros (A & B). split; [|auto]. eapply complete_sub; eauto.
Qed.
Lemma in_mid {A} (l1 : list A) a l2 b : In b (l1 ++ a :: l2) <-> b = a \/ In b (l1 ++ l2).
Proof. rewrite !in_app_iff. cbn. intuition congruence. Qed.

Lemma step_inv seq m0 payload s t :
  u32 (Z.of_nat (length payload)) -> Z.of_nat (length payload) < shm_size - 8 ->
  seq_field m0 <> seq ->
  step seq s t -> wr seq m0 payload (mem s) (todo_w s) -> rd_ok seq m0 payload (todo_w s) (rd s) ->
  wr seq m0 payload (mem t) (todo_w t) /\ rd_ok seq m0 payload (todo_w t) (rd t).
Proof.
  intros U Len NS St Iw Ir. destruct St; cbn [mem todo_w rd] in *.
  - (* write *)
    destruct Iw as [Sh D O]. destruct (shape_write _ _ _ _ _ _ _ Sh) as (Sh' & P & Pa).
    split; [split|].
    + exact Sh'.
    + intros b u Pb Nb. unfold upd. destruct (Z.eqb_spec b a) as [->|Ne].
      * eapply W_fun; [|exact Pb]. eapply shape_sub; [exact Sh|exact Pa].
      * apply D; auto. intros Q. apply Nb. apply P. auto.
    + intros b Hb. unfold upd. destruct (Z.eqb_spec b a) as [->|Ne].
      * exfalso. destruct Hb as [(u & Q)|Q]; [apply P in Q; tauto|]. apply (Q v). eapply shape_sub; [exact Sh|exact Pa].
      * apply O. destruct Hb as [(u & Q)|Q]; [left; exists u; apply P in Q; tauto|now right].
    + eapply rd_ok_sub; [|exact Ir]. intros b u Q. apply P in Q. tauto.
  - (* statement end *)
    assert (P : forall a v, pend rest a v <-> pend ([] :: rest) a v) by (intros; rewrite pend_cons; cbn; tauto).
    destruct Iw as [Sh D O]. split; [split|].
    + inversion Sh; subst; [apply sh2|apply sh3|apply sh4]; apply part_full.
    + intros a v Pa Na. apply D; auto. now rewrite <- P.
    + intros a [(v & Q)|Q]; apply O; [left; exists v; now rewrite <- P|now right].
    + eapply rd_ok_sub; [|exact Ir]. intros a v. apply P.
  - (* call *)
    split; auto. cbn [rd_ok slice]. split; [intros a B; left; cbn; lia|split; [intros a I; cbn in I; lia|intros a v []]].
  - (* read seq *)
    split; auto. destruct Ir as (A & B & C). cbn [rd_ok]. split; [|split].
    + intros b Bb. destruct (A b Bb) as [I|(v & I)]; [|right; exists v; now right].
      apply in_mid in I as [->|I]; [right; exists (m a); now left|now left].
    + intros b I. apply B, in_mid. now right.
    + intros b v [E|I] N; [|eauto]. inversion E; subst.
      assert (Ba : 0 <= b < 4) by (apply B, in_mid; now left).
      destruct (shape_cases _ _ _ (wr_shape _ _ _ _ _ Iw)) as [X|X]; [exact X|].
      exfalso. apply N. apply (wr_old _ _ _ _ _ Iw). left. auto.
  - (* seq differs *) split; auto. now left.
  - (* seq same *)
    split; auto. destruct Ir as (A & _ & C). cbn [rd_ok]. split.
    + assert (D : (exists a, 0 <= a < 4 /\ value a got <> m0 a) \/ forall a, 0 <= a < 4 -> value a got = m0 a).
      { destruct (Z.eq_dec (value 0 got) (m0 0)); [|left; exists 0; lia].
        destruct (Z.eq_dec (value 1 got) (m0 1)); [|left; exists 1; lia].
        destruct (Z.eq_dec (value 2 got) (m0 2)); [|left; exists 2; lia].
        destruct (Z.eq_dec (value 3 got) (m0 3)); [|left; exists 3; lia].
        right. intros a B. assert (Q : a = 0 \/ a = 1 \/ a = 2 \/ a = 3) by lia.
        destruct Q as [->|[->|[->| ->]]]; auto. }
      destruct D as [(a & B & N)|E].
      * apply (C a (value a got)); auto. apply value_In. destruct (A a B) as [[]|Ex]; auto.
      * exfalso. apply NS. unfold seq_field. rewrite <- H. cbn [slice map].
        cbn [Z.add Pos.add Pos.succ]. rewrite !E by lia. reflexivity.
    + split; [intros a B; left; apply In_slice; lia|split; [intros a I; apply In_slice in I; lia|intros a v []]].
  - (* read size *)
    split; auto. destruct Ir as (Cw & A & B & C). cbn [rd_ok]. split; [auto|split; [|split]].
    + intros b Bb. destruct (A b Bb) as [I|(v & I)]; [|right; exists v; now right].
      apply in_mid in I as [->|I]; [right; exists (m a); now left|now left].
    + intros b I. apply B, in_mid. now right.
    + intros b v [E|I]; [|eauto]. inversion E; subst.
      assert (Ba : 4 <= b < 8) by (apply B, in_mid; now left).
      eapply complete_read; eauto. lia.
  - (* size *)
    split; auto. destruct Ir as (Cw & A & B & C). cbn [rd_ok].
    assert (E : size = Z.of_nat (length payload)).
    { subst size. change 4%nat with (length (pack (Z.of_nat (length payload)))). rewrite slice_value; [apply unpack_pack, U|].
      intros a v I. assert (Ba : 4 <= a < 8) by (apply slice_writes_In in I as (Q & _); cbn [length pack] in Q; lia).
      destruct (A a Ba) as [[]|Ex]. apply value_In in Ex. apply C in Ex.
      eapply W_fun; [exact Ex|]. unfold W, W1. rewrite pend_cons. now left. }
    split; [auto|split; [auto|]]. unfold data_slice.
    rewrite Z.min_l by lia.
    split; [intros a Q; left; apply In_slice; lia|split; [intros a I; apply In_slice in I; lia|intros a v []]].
  - (* read data *)
    split; auto. destruct Ir as (Cw & Es & A & B & C). cbn [rd_ok]. split; [auto|split; [auto|split; [|split]]].
    + intros b Bb. destruct (A b Bb) as [I|(v & I)]; [|right; exists v; now right].
      apply in_mid in I as [->|I]; [right; exists (m a); now left|now left].
    + intros b I. apply B, in_mid. now right.
    + intros b v [E|I]; [|eauto]. inversion E; subst.
      assert (Ba : 8 <= b < 8 + Z.of_nat (length payload)) by (apply B, in_mid; now left).
      eapply complete_read; eauto. lia.
  - (* data *)
    split; auto. destruct Ir as (Cw & Es & A & B & C). cbn [rd_ok]. right. f_equal. unfold data_slice. rewrite Z.min_l by lia.
    rewrite Es, Nat2Z.id. apply slice_value. intros a v I.
    assert (Ba : 8 <= a < 8 + size) by (apply slice_writes_In in I as (Q & _); lia).
    destruct (A a Ba) as [[]|Ex]. apply value_In in Ex. apply C in Ex.
    eapply W_fun; [exact Ex|]. unfold W. rewrite !pend_cons. right. now left.
Qed.

Lemma wr_start seq m0 payload : wr seq m0 payload m0 (W seq payload).
Proof. split; [apply shape_start|intros a v P N; contradiction|auto]. Qed.

Lemma put_ok seq payload w : put_object seq payload = Some w ->
  w = W seq payload /\ Z.of_nat (length payload) < shm_size - 8 /\ u32 (Z.of_nat (length payload)).
Proof.
  unfold put_object. destruct (Z.ltb_spec (Z.of_nat (length payload)) (shm_size - 8)) as [L|L]; [|discriminate].
  intros E. inversion E. split; [reflexivity|]. split; auto. unfold u32, shm_size in *. lia.
Qed.

Lemma steps_inv seq m0 payload s t :
  u32 (Z.of_nat (length payload)) -> Z.of_nat (length payload) < shm_size - 8 -> seq_field m0 <> seq ->
  steps seq s t -> wr seq m0 payload (mem s) (todo_w s) -> rd_ok seq m0 payload (todo_w s) (rd s) ->
  wr seq m0 payload (mem t) (todo_w t) /\ rd_ok seq m0 payload (todo_w t) (rd t).
Proof.
  intros U L NS St. induction St as [s|s t u St IH X]; auto.
  intros A B. destruct (IH A B). eapply step_inv; eauto.
Qed.

(** ** Theorems *)

(** Nothing or the complete object, at every interleaving and every crash point. *)
Theorem C39_never_torn : forall seq m0 o w s r,
  put_object seq o = Some w -> seq_field m0 <> seq ->
  steps seq (start m0 w) s -> rd s = Done r ->
  r = None \/ r = Some o.
Proof.
  intros seq m0 o w s r P NS St E. destruct (put_ok _ _ _ P) as (-> & L & U).
  destruct (steps_inv seq m0 o _ _ U L NS St) as (_ & R); [apply wr_start|exact I|].
  rewrite E in R. exact R.
Qed.

(** *** A finished message *)
Definition rd_fin (m : memory) (payload : list Z) (r : reader) : Prop :=
  match r with
  | Idle => True
  | InSeq todo got => (forall a, 0 <= a < 4 -> In a todo \/ exists v, In (a, v) got) /\ (forall a v, In (a, v) got -> v = m a)
  | InSize todo got => (forall a, 4 <= a < 8 -> In a todo \/ exists v, In (a, v) got) /\ (forall a v, In (a, v) got -> v = m a)
  | InData size todo got => size = Z.of_nat (length payload) /\
      (forall a, 8 <= a < 8 + size -> In a todo \/ exists v, In (a, v) got) /\ (forall a v, In (a, v) got -> v = m a)
  | Done o => o = Some payload
  end.
Lemma cover_mid (lo hi : Z) l1 a l2 (got : list (Z * Z)) (x : Z) :
  (forall b, lo <= b < hi -> In b (l1 ++ a :: l2) \/ exists v, In (b, v) got) ->
  forall b, lo <= b < hi -> In b (l1 ++ l2) \/ exists v, In (b, v) ((a, x) :: got).
Proof.
  intros A b Bb. destruct (A b Bb) as [I|(v & I)]; [|right; exists v; now right].
  apply in_mid in I as [->|I]; [right; exists x; now left|now left].
Qed.
Lemma fin_values m seq base bs (got : list (Z * Z)) payload :
  (forall a v, pend (W seq payload) a v -> m a = v) ->
  (forall a v, In (a, v) (slice_writes base bs) -> pend (W seq payload) a v) ->
  (forall a, base <= a < base + Z.of_nat (length bs) -> In a [] \/ exists v, In (a, v) got) ->
  (forall a v, In (a, v) got -> v = m a) ->
  map (fun a => value a got) (slice base (length bs)) = bs.
Proof.
  intros F Sb A C. apply slice_value. intros a v I.
  pose proof (slice_writes_In _ _ _ _ I) as (B & _). destruct (A a B) as [[]|Ex].
  apply value_In in Ex. apply C in Ex. rewrite Ex. auto.
Qed.
Lemma step_fin seq m payload s t :
  u32 seq -> u32 (Z.of_nat (length payload)) -> Z.of_nat (length payload) < shm_size - 8 ->
  (forall a v, pend (W seq payload) a v -> m a = v) ->
  step seq s t -> mem s = m -> todo_w s = [] -> rd_fin m payload (rd s) ->
  mem t = m /\ todo_w t = [] /\ rd_fin m payload (rd t).
Proof.
  intros Us U L F St Em Ew Ir. destruct St; cbn [mem todo_w rd] in *; try discriminate; subst; split; auto; split; auto; cbn [rd_fin] in *.
  - split; [intros a B; left; apply In_slice; lia|intros a v []].
  - destruct Ir as (A & C). split; [eapply cover_mid, A|]. intros b v [E|I]; [congruence|auto].
  - destruct Ir as (A & C). exfalso. apply H. change 4%nat with (length (pack seq)).
    rewrite (fin_values m seq 0 (pack seq) got payload); auto; [now apply unpack_pack|].
    intros a v I. unfold W. rewrite !pend_cons. auto.
  - split; [intros a B; left; apply In_slice; lia|intros a v []].
  - destruct Ir as (A & C). split; [eapply cover_mid, A|]. intros b v [E|I]; [congruence|auto].
  - destruct Ir as (A & C). assert (E : unpack (map (fun a => value a got) (slice 4 4)) = Z.of_nat (length payload)).
    { change 4%nat with (length (pack (Z.of_nat (length payload)))).
      rewrite (fin_values m seq 4 (pack (Z.of_nat (length payload))) got payload); auto; [now apply unpack_pack|].
      intros a v I. unfold W. rewrite !pend_cons. auto. }
    split; [exact E|]. split; [|intros a v []]. intros a B. left. rewrite E in *. unfold data_slice. rewrite Z.min_l by lia. apply In_slice. lia.
  - destruct Ir as (E & A & C). split; auto. split; [eapply cover_mid, A|]. intros b v [Q|I]; [congruence|auto].
  - destruct Ir as (E & A & C). subst size. unfold data_slice. rewrite Z.min_l by lia. rewrite Nat2Z.id.
    rewrite (fin_values m seq 8 payload got payload); auto. intros a v I. unfold W. rewrite !pend_cons. auto.
Qed.
Lemma steps_fin seq m payload s t :
  u32 seq -> u32 (Z.of_nat (length payload)) -> Z.of_nat (length payload) < shm_size - 8 ->
  (forall a v, pend (W seq payload) a v -> m a = v) ->
  steps seq s t -> mem s = m -> todo_w s = [] -> rd_fin m payload (rd s) ->
  mem t = m /\ todo_w t = [] /\ rd_fin m payload (rd t).
Proof.
  intros Us U L F St. induction St as [s|s t u St IH X]; [auto|].
  intros A B C. destruct (IH A B C) as (A' & B' & C'). exact (step_fin seq m payload t u Us U L F X A' B' C').
Qed.
(** The final memory does not depend on a reader being there, nor on what was there before. *)
Lemma step_wr seq m0 payload s t : step seq s t -> wr seq m0 payload (mem s) (todo_w s) -> wr seq m0 payload (mem t) (todo_w t).
Proof.
  intros St Iw. destruct St; cbn [mem todo_w] in *; auto.
  - destruct Iw as [Sh D O]. destruct (shape_write _ _ _ _ _ _ _ Sh) as (Sh' & P & Pa). split; [exact Sh'|..].
    + intros b u Pb Nb. unfold upd. destruct (Z.eqb_spec b a) as [->|Ne].
      * eapply W_fun; [|exact Pb]. eapply shape_sub; [exact Sh|exact Pa].
      * apply D; auto. intros Q. apply Nb. apply P. auto.
    + intros b Hb. unfold upd. destruct (Z.eqb_spec b a) as [->|Ne].
      * exfalso. destruct Hb as [(u & Q)|Q]; [apply P in Q; tauto|]. apply (Q v). eapply shape_sub; [exact Sh|exact Pa].
      * apply O. destruct Hb as [(u & Q)|Q]; [left; exists u; apply P in Q; tauto|now right].
  - assert (P : forall a v, pend rest a v <-> pend ([] :: rest) a v) by (intros; rewrite pend_cons; cbn; tauto).
    destruct Iw as [Sh D O]. split.
    + inversion Sh; subst; [apply sh2|apply sh3|apply sh4]; apply part_full.
    + intros a v Pa Na. apply D; auto. now rewrite <- P.
    + intros a [(v & Q)|Q]; apply O; [left; exists v; now rewrite <- P|now right].
Qed.
Lemma steps_wr seq m0 payload s t : steps seq s t -> wr seq m0 payload (mem s) (todo_w s) -> wr seq m0 payload (mem t) (todo_w t).
Proof. intros St. induction St; auto. intros A. eapply step_wr; eauto. Qed.

Definition calling (m : memory) (w : list (list (Z * Z))) : state := {| mem := m; todo_w := w; rd := InSeq (slice 0 4) [] |}.

(** Once put has finished, every later call of get returns the object: never None again. *)
Theorem C39_delivered_once_finished : forall seq m0 o w s t r,
  u32 seq -> put_object seq o = Some w ->
  steps seq (start m0 w) s -> todo_w s = [] ->
  steps seq (calling (mem s) (todo_w s)) t -> rd t = Done r -> r = Some o.
Proof.
  intros seq m0 o w s t r Us P St E St2 R. destruct (put_ok _ _ _ P) as (-> & L & U).
  pose proof (steps_wr seq m0 o _ _ St (wr_start _ _ _)) as [_ D _]. rewrite E in *.
  destruct (steps_fin seq (mem s) o _ _ Us U L (fun a v Q => D a v Q (pend_nil a v)) St2) as (_ & _ & F); auto.
  - cbn. split; [intros a B; left; lia|intros a v []].
  - rewrite R in F. exact F.
Qed.

(** Every call of get ends after a bounded number of steps of its own, whatever the writer
    does or does not do. *)
Lemma steps_trans seq s t u : steps seq s t -> steps seq t u -> steps seq s u.
Proof. intros A B. revert A. induction B as [|x y z B IH X]; [auto|]. intros A. eapply steps_step; [apply IH, A|exact X]. Qed.
Definition in_call (r : reader) : Prop := match r with Idle | Done _ => False | _ => True end.
Theorem C39_get_terminates : forall seq m w r, in_call r ->
  exists o, steps seq {| mem := m; todo_w := w; rd := r |} {| mem := m; todo_w := w; rd := Done o |}.
Proof.
  intros seq m w.
  assert (One : forall s t, step seq s t -> steps seq s t) by (intros s t X; eapply steps_step; [apply steps_refl|exact X]).
  assert (D : forall size todo got, exists o, steps seq {| mem := m; todo_w := w; rd := InData size todo got |} {| mem := m; todo_w := w; rd := Done o |}).
  { intros size todo. induction todo as [|a todo IH]; intros got.
    - eexists. apply One. apply s_data.
    - destruct (IH ((a, m a) :: got)) as (o & X). exists o. eapply steps_trans; [apply One, (s_read_data seq m w size [] a todo got)|exact X]. }
  assert (Z0 : forall todo got, exists o, steps seq {| mem := m; todo_w := w; rd := InSize todo got |} {| mem := m; todo_w := w; rd := Done o |}).
  { intros todo. induction todo as [|a todo IH]; intros got.
    - destruct (D (unpack (map (fun a => value a got) (slice 4 4))) (data_slice (unpack (map (fun a => value a got) (slice 4 4)))) []) as (o & X).
      exists o. eapply steps_trans; [apply One, s_size; reflexivity|exact X].
    - destruct (IH ((a, m a) :: got)) as (o & X). exists o. eapply steps_trans; [apply One, (s_read_size seq m w [] a todo got)|exact X]. }
  assert (Q : forall todo got, exists o, steps seq {| mem := m; todo_w := w; rd := InSeq todo got |} {| mem := m; todo_w := w; rd := Done o |}).
  { intros todo. induction todo as [|a todo IH]; intros got.
    - destruct (Z.eq_dec (unpack (map (fun a => value a got) (slice 0 4))) seq) as [E|N].
      + destruct (Z0 (slice 4 4) []) as (o & X). exists o. eapply steps_trans; [apply One, s_seq_same, E|exact X].
      + exists None. apply One, s_seq_differs, N.
    - destruct (IH ((a, m a) :: got)) as (o & X). exists o. eapply steps_trans; [apply One, (s_read_seq seq m w [] a todo got)|exact X]. }
  intros [| | | |]; cbn; try tauto; auto.
Qed.

(** Put refuses objects that do not fit and otherwise writes only inside the buffer. *)
Theorem C39_stays_inside_the_buffer : forall seq o,
  (10232 <= Z.of_nat (length o) -> put_object seq o = None) /\
  (Z.of_nat (length o) < 10232 -> exists w, put_object seq o = Some w /\
     forall st a v, In st w -> In (a, v) st -> 0 <= a < 10240).
Proof.
  intros seq o. unfold put_object. destruct (Z.ltb_spec (Z.of_nat (length o)) (shm_size - 8)) as [L|L]; unfold shm_size in L.
  - split; [lia|]. intros _. eexists. split; [reflexivity|].
    intros st a v [<-|[<-|[<-|[]]]] J; apply slice_writes_In in J as (B & _); cbn [length pack] in B; lia.
  - split; [auto|lia].
Qed.

(** The whole hand-over: on fresh (zero) memory the parent puts the parameters (sequence 1) and
    only then starts the child, which gets exactly the parameters; then the child puts its
    result (sequence 2) while the parent polls: each poll yields nothing or exactly the result,
    and exactly the result once the child has finished. *)
Theorem C39_startup_handover : forall params result w1 w2 s1,
  put_object 1 params = Some w1 -> put_object 2 result = Some w2 ->
  steps 1 (start (fun _ => 0) w1) s1 -> todo_w s1 = [] ->
  (forall t r, steps 1 (calling (mem s1) []) t -> rd t = Done r -> r = Some params) /\
  (forall t r, steps 2 (start (mem s1) w2) t -> rd t = Done r -> r = None \/ r = Some result) /\
  (forall s t r, steps 2 (start (mem s1) w2) s -> todo_w s = [] -> steps 2 (calling (mem s) []) t -> rd t = Done r -> r = Some result).
Proof.
  intros params result w1 w2 s1 P1 P2 St E.
  assert (U1 : u32 1) by (unfold u32; lia). assert (U2 : u32 2) by (unfold u32; lia).
  split; [|split].
  - intros t r X R. rewrite <- E in X. eapply (C39_delivered_once_finished 1 _ params w1); eauto.
  - intros t r X R. eapply (C39_never_torn 2 (mem s1) result w2); eauto.
    destruct (put_ok _ _ _ P1) as (-> & L & U).
    pose proof (steps_wr 1 _ params _ _ St (wr_start _ _ _)) as [_ D _]. rewrite E in D.
    assert (V : forall a v, In (a, v) (slice_writes 0 (pack 1)) -> mem s1 a = v).
    { intros a v I. apply D; [|apply pend_nil]. unfold W. rewrite !pend_cons. auto. }
    unfold seq_field. rewrite (V 0 1), (V 1 0), (V 2 0), (V 3 0) by (vm_compute; tauto). discriminate.
  - intros s t r X E2 Y R. rewrite <- E2 in Y. eapply (C39_delivered_once_finished 2 (mem s1) result w2 s); eauto.
Qed.

(** ** The hypotheses can be met *)
Module Demo.
  Definition params := [128; 4; 75; 1; 46].
  Definition zero : memory := fun _ => 0.
  Example put_params : exists w, put_object 1 params = Some w.
  Proof. eexists. reflexivity. Qed.
  (** The writer can run to its end, from any memory. *)
  Lemma write_all seq m r : forall w, exists m', steps seq {| mem := m; todo_w := w; rd := r |} {| mem := m'; todo_w := []; rd := r |}.
  Proof.
    assert (One : forall s t, step seq s t -> steps seq s t) by (intros s t X; eapply steps_step; [apply steps_refl|exact X]).
    assert (G : forall w m, exists m', steps seq {| mem := m; todo_w := w; rd := r |} {| mem := m'; todo_w := []; rd := r |}).
    { clear m. induction w as [|st w IH]; intros m; [exists m; constructor|].
      revert m. induction st as [|(a, v) st IHs]; intros m.
      - destruct (IH m) as (m' & X). exists m'. eapply steps_trans; [apply One, s_statement_end|exact X].
      - destruct (IHs (upd m a v)) as (m' & X). exists m'. eapply steps_trans; [apply One, (s_write seq m [] a v st w r)|exact X]. }
    intros w. apply G.
  Qed.
  (** A poll in the middle of the writes: the size and part of the data are there, the sequence
      field is not; get returns None. *)
  Example poll_in_the_middle : exists s, steps 2 (start zero [slice_writes 4 (pack 2); slice_writes 8 [7; 9]; slice_writes 0 (pack 2)]) s /\
    mem s 4 = 2 /\ mem s 8 = 0 /\ mem s 9 = 9 /\ rd s = Done None.
  Proof.
    assert (Front : forall s t u, step 2 s t -> steps 2 t u -> steps 2 s u).
    { intros s t u X Y. eapply steps_trans; [|exact Y]. eapply steps_step; [apply steps_refl|exact X]. }
    eexists. split.
    - unfold start. cbn [slice_writes pack].
      eapply Front; [apply (s_write 2 _ [(4, _)] _ _ [_; _])|].
      eapply Front; [apply (s_write 2 _ [] _ _ [_; _])|].
      eapply Front; [apply (s_write 2 _ [_] _ _ [])|].
      eapply Front; [apply (s_write 2 _ [] _ _ [])|].
      eapply Front; [apply s_statement_end|].
      eapply Front; [apply (s_write 2 _ [_] _ _ [])|].
      eapply Front; [apply s_call; now left|]. cbn [slice].
      eapply Front; [apply (s_read_seq 2 _ _ [_; _] _ [_])|].
      eapply Front; [apply (s_read_seq 2 _ _ [] _ [_; _])|].
      eapply Front; [apply (s_read_seq 2 _ _ [] _ [_])|].
      eapply Front; [apply (s_read_seq 2 _ _ [] _ [])|].
      eapply Front; [apply s_seq_differs; vm_compute; discriminate|].
      apply steps_refl.
    - repeat split; vm_compute; reflexivity.
  Qed.
End Demo.

Print Assumptions C39_never_torn.
Print Assumptions C39_delivered_once_finished.
Print Assumptions C39_get_terminates.
Print Assumptions C39_stays_inside_the_buffer.
Print Assumptions C39_startup_handover.
