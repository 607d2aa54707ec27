(** * StoreWireProofs: what each send and receive moves *)
From Coq Require Import Ascii String List Bool Arith NArith ZArith Lia.
From Verif Require Import PyStr StoreWireModel.
Import ListNotations.
Open Scope list_scope.
Open Scope nat_scope.

(** ** Numbers *)
Lemma le_length k n : List.length (le k n) = k.
Proof. revert n; induction k as [|k IH]; intros; simpl; [reflexivity|now rewrite IH]. Qed.
Lemma unle_le k n : unle (le k n) = (n mod 256 ^ N.of_nat k)%N.
Proof.
  revert n; induction k as [|k IH]; intros n.
  - simpl. now rewrite N.mod_1_r.
  - cbn [le unle]. rewrite IH, N_ascii_embedding by (apply N.mod_lt; discriminate).
    rewrite Nat2N.inj_succ, N.pow_succ_r' .
    rewrite (N.mod_mul_r n 256 (256 ^ N.of_nat k)); [reflexivity|discriminate|].
    apply N.pow_nonzero. discriminate.
Qed.
Lemma unle_u64 n : (n < 2 ^ 64)%N -> unle (u64 n) = n.
Proof. intros H. unfold u64. rewrite unle_le. apply N.mod_small. exact H. Qed.
Lemma unle_1 n : (n < 256)%N -> unle (le 1 n) = n.
Proof. intros H. rewrite unle_le. apply N.mod_small. exact H. Qed.
Lemma to_i64_i64 z : (- 2 ^ 63 <= z < 2 ^ 63)%Z -> to_i64 (unle (i64 z)) = z.
Proof.
  intros H. unfold i64. rewrite unle_le. rewrite N.mod_small.
  2: { change (256 ^ N.of_nat 8)%N with (2 ^ 64)%N.
       apply N2Z.inj_lt. rewrite Z2N.id by (apply Z.mod_pos_bound; reflexivity).
       change (Z.of_N (2 ^ 64)) with (2 ^ 64)%Z. apply Z.mod_pos_bound. reflexivity. }
  unfold to_i64. rewrite Z2N.id by (apply Z.mod_pos_bound; reflexivity).
  destruct (Z.leb_spec 0 z) as [Hz|Hz].
  - rewrite Z.mod_small by lia. destruct (Z.ltb_spec z (2 ^ 63)); lia.
  - rewrite <- (Z.mod_add z 1 (2 ^ 64)) by lia. rewrite Z.mul_1_l, Z.mod_small by lia.
    destruct (Z.ltb_spec (z + 2 ^ 64) (2 ^ 63)); lia.
Qed.

(** ** Answers that keep the transfer going: no error, no end of file *)
Definition helpful (a : answer) : Prop :=
  match a with Moved k => k <> 0 | Interrupted => True | _ => False end.
Definition moves (a : answer) : bool := match a with Moved _ => true | _ => false end.
Definition enough (ans : list answer) (n : nat) : Prop :=
  Forall helpful ans /\ n <= List.length (filter moves ans).

(** ** Sending *)
Definition Puts (m : W) (w : bytes) : Prop :=
  (forall o ans, match m (o, ans) with
    | ((o', _), Sent) => o' = o ++ w
    | ((o', _), _) => exists p q, w = p ++ q /\ q <> [] /\ o' = o ++ p
    end) /\
  (forall o ans n, enough ans (List.length w + n) -> exists o' ans', m (o, ans) = ((o', ans'), Sent) /\ enough ans' n).

Lemma send_loop_spec ans : forall todo put ans' r, todo <> [] -> send_loop ans todo = (put, ans', r) ->
  match r with Sent => put = todo | _ => exists q, todo = put ++ q /\ q <> [] end.
Proof.
  induction ans as [|a ans IH]; intros todo put ans' r Ht H; cbn [send_loop] in H.
  - injection H as <- <- <-. exists todo. now split.
  - destruct a as [k| | |e].
    + destruct (firstn k todo) as [|x now] eqn:En.
      * injection H as <- <- <-. exists todo. now split.
      * pose proof (firstn_skipn k todo) as Es. rewrite En in Es.
        destruct (skipn k todo) as [|y rest] eqn:Er.
        -- injection H as <- <- <-. now rewrite app_nil_r in Es.
        -- destruct (send_loop ans (y :: rest)) as [[more ans2] r2] eqn:E2.
           injection H as <- <- <-. apply IH in E2; [|discriminate].
           destruct r2.
           ++ rewrite E2. exact Es.
           ++ destruct E2 as (q & Eq & Hq). exists q. split; [|exact Hq]. rewrite <- Es, Eq. cbn [app]. now rewrite <- app_assoc.
           ++ destruct E2 as (q & Eq & Hq). exists q. split; [|exact Hq]. rewrite <- Es, Eq. cbn [app]. now rewrite <- app_assoc.
    + eapply IH; eassumption.
    + injection H as <- <- <-. exists todo. now split.
    + injection H as <- <- <-. exists todo. now split.
Qed.

Lemma enough_le ans n m : n <= m -> enough ans m -> enough ans n.
Proof. intros H [F L]. split; [exact F|lia]. Qed.

Lemma send_loop_live ans : forall todo n, todo <> [] -> enough ans (List.length todo + n) ->
  exists put ans', send_loop ans todo = (put, ans', Sent) /\ enough ans' n.
Proof.
  induction ans as [|a ans IH]; intros todo n Ht [F L].
  - simpl in L. destruct todo; [congruence|]. simpl in L. lia.
  - inversion F as [|? ? Ha F']; subst. destruct a as [k| | |e]; simpl in Ha; try contradiction.
    + cbn [send_loop]. destruct todo as [|x todo]; [congruence|]. destruct k as [|k]; [congruence|].
      cbn [firstn skipn]. cbn in L.
      destruct (skipn k todo) as [|y rest] eqn:Er.
      * exists (x :: firstn k todo), ans. split; [reflexivity|]. split; [exact F'|lia].
      * destruct (IH (y :: rest) n) as (p & a' & E & En); [discriminate| |].
        { split; [exact F'|]. rewrite <- Er, skipn_length. lia. }
        rewrite E. eexists _, _. split; [reflexivity|exact En].
    + cbn [send_loop]. apply IH; [exact Ht|]. split; [exact F'|]. exact L.
Qed.

Lemma puts_bytes b : Puts (sendBytes b) b.
Proof.
  split.
  - intros o ans. unfold sendBytes. destruct b as [|x b].
    + cbn. now rewrite app_nil_r.
    + cbn [fst snd]. destruct (send_loop ans (x :: b)) as [[put ans'] r] eqn:E.
      apply send_loop_spec in E; [|discriminate]. destruct r; cbn.
      * now subst put.
      * destruct E as (q & Eq & Hq). exists put, q. auto.
      * destruct E as (q & Eq & Hq). exists put, q. auto.
  - intros o ans n H. unfold sendBytes. destruct b as [|x b].
    + eexists _, _. split; [reflexivity|exact H].
    + cbn [fst snd]. destruct (send_loop_live ans (x :: b) n) as (p & a' & E & En); [discriminate|exact H|].
      rewrite E. eexists _, _. split; [reflexivity|exact En].
Qed.
Lemma puts_nop : Puts wnop [].
Proof.
  split; [intros; cbn; now rewrite app_nil_r|]. intros o ans n H. exists o, ans. split; [reflexivity|exact H].
Qed.
Lemma puts_seq a b w w' : Puts a w -> Puts b w' -> Puts (wseq a b) (w ++ w').
Proof.
  intros [A1 A2] [B1 B2]. split.
  - intros o ans. unfold wseq. specialize (A1 o ans). destruct (a (o, ans)) as [[o1 a1] [|f|]].
    + subst o1. specialize (B1 (o ++ w) a1). destruct (b (o ++ w, a1)) as [[o2 a2] [|f|]].
      * rewrite B1. now rewrite app_assoc.
      * destruct B1 as (p & q & E & Hq & Eo). exists (w ++ p), q. subst w'. rewrite Eo, <- !app_assoc. auto.
      * destruct B1 as (p & q & E & Hq & Eo). exists (w ++ p), q. subst w'. rewrite Eo, <- !app_assoc. auto.
    + destruct A1 as (p & q & E & Hq & Eo). exists p, (q ++ w'). subst w. rewrite <- app_assoc.
      repeat split; [|exact Eo]. destruct q; [congruence|discriminate].
    + destruct A1 as (p & q & E & Hq & Eo). exists p, (q ++ w'). subst w. rewrite <- app_assoc.
      repeat split; [|exact Eo]. destruct q; [congruence|discriminate].
  - intros o ans n H. rewrite app_length, <- Nat.add_assoc in H.
    destruct (A2 o ans (List.length w' + n) H) as (o1 & a1 & E1 & En1).
    destruct (B2 o1 a1 n En1) as (o2 & a2 & E2 & En2).
    exists o2, a2. unfold wseq. rewrite E1. auto.
Qed.
Definition vec (b : bytes) : bytes := u64 (size b) ++ b.
Lemma puts_vector b : Puts (sendVector b) (vec b).
Proof. apply puts_seq; apply puts_bytes. Qed.
Lemma puts_vectors vs : Puts (sendVectors vs) (concat (map vec vs)).
Proof. induction vs; [apply puts_nop|]. cbn [map concat sendVectors]. apply puts_seq; [apply puts_vector|assumption]. Qed.

(** ** The buffer: nothing is lost, added or reordered, whenever it is flushed *)
Definition Buffers (m : S_) (w : bytes) : Prop :=
  (forall s, match m s with
    | (s', Sent) => wire s' ++ buffer s' = wire s ++ buffer s ++ w
    | (s', _) => exists q, q <> [] /\ wire s' ++ q = wire s ++ buffer s ++ w
    end) /\
  (forall s n, enough (sanswers s) (List.length (buffer s ++ w) + n) ->
    exists s', m s = (s', Sent) /\ enough (sanswers s') (List.length (buffer s') + n)).

Lemma buffers_flush : Buffers flush [] /\ (forall s, snd (flush s) = Sent -> buffer (fst (flush s)) = []).
Proof.
  split; [split|].
  - intros s. unfold flush. destruct (buffer s) as [|x b] eqn:Eb.
    + now rewrite Eb, !app_nil_r.
    + destruct (puts_bytes (x :: b)) as [P _]. specialize (P (wire s) (sanswers s)).
      destruct (sendBytes (x :: b) (wire s, sanswers s)) as [[w a] [|f|]].
      * cbn. now rewrite app_nil_r, P, app_nil_r.
      * destruct P as (p & q & E & Hq & Ew). exists q. split; [exact Hq|]. cbn [wire].
        now rewrite Ew, app_nil_r, E, app_assoc.
      * destruct P as (p & q & E & Hq & Ew). exists q. split; [exact Hq|]. cbn [wire].
        now rewrite Ew, app_nil_r, E, app_assoc.
  - intros s n H. unfold flush. destruct (buffer s) as [|x b] eqn:Eb.
    + exists s. rewrite Eb. auto.
    + destruct (puts_bytes (x :: b)) as [_ P]. rewrite app_nil_r in H.
      destruct (P (wire s) (sanswers s) n H) as (o & a & E & En).
      rewrite E. eexists. split; [reflexivity|]. exact En.
  - intros s. unfold flush. destruct (buffer s) as [|x b] eqn:Eb; [cbn; auto|].
    destruct (sendBytes (x :: b) (wire s, sanswers s)) as [[w a] [|f|]]; cbn; [auto|discriminate|discriminate].
Qed.
Lemma buffers_nop : Buffers snop [].
Proof.
  split; [intros s; cbn; now rewrite app_nil_r|]. intros s n H. rewrite app_nil_r in H. exists s. auto.
Qed.
Lemma buffers_maybe : Buffers maybeFlush [].
Proof.
  destruct buffers_flush as [[F1 F2] _]. split; intros s; unfold maybeFlush; destruct (_ <=? _).
  - apply F1.
  - now rewrite app_nil_r.
  - apply F2.
  - intros n H. rewrite app_nil_r in H. exists s. auto.
Qed.
Lemma buffers_insert b : Buffers (insert b) b.
Proof. split; [intros s; reflexivity|]. intros s n H. eexists. split; [reflexivity|]. exact H. Qed.
Lemma buffers_seq a b w w' : Buffers a w -> Buffers b w' -> Buffers (sseq a b) (w ++ w').
Proof.
  intros [A1 A2] [B1 B2]. split.
  - intros s. unfold sseq. specialize (A1 s). destruct (a s) as [s1 [|f|]].
    + specialize (B1 s1). rewrite app_assoc, A1 in B1. rewrite <- !app_assoc in B1.
      destruct (b s1) as [s2 [|f|]].
      * rewrite B1. now rewrite !app_assoc.
      * destruct B1 as (q & Hq & E). exists q. split; [exact Hq|]. exact E.
      * destruct B1 as (q & Hq & E). exists q. split; [exact Hq|]. exact E.
    + destruct A1 as (q & Hq & E). exists (q ++ w'). split; [destruct q; [congruence|discriminate]|].
      rewrite app_assoc, E, <- !app_assoc. reflexivity.
    + destruct A1 as (q & Hq & E). exists (q ++ w'). split; [destruct q; [congruence|discriminate]|].
      rewrite app_assoc, E, <- !app_assoc. reflexivity.
  - intros s n H. rewrite app_assoc, app_length, <- Nat.add_assoc in H.
    destruct (A2 s _ H) as (s1 & E1 & H1). unfold sseq. rewrite E1.
    rewrite Nat.add_assoc, <- app_length in H1. apply B2. exact H1.
Qed.
Lemma buffers_value b : Buffers (appendValue b) b.
Proof. rewrite <- (app_nil_r b) at 2. apply buffers_seq; [apply buffers_insert|apply buffers_maybe]. Qed.
Lemma buffers_string b : Buffers (appendString b) (vec b).
Proof.
  unfold vec. apply buffers_seq; [apply buffers_value|].
  rewrite <- (app_nil_r b) at 2. apply buffers_seq; [apply buffers_insert|apply buffers_maybe].
Qed.
Lemma buffers_bytes b : Buffers (appendBytes b) (vec b).
Proof. apply buffers_string. Qed.
Lemma buffers_strings ks : Buffers (appendStrings ks) (concat (map vec ks)).
Proof. induction ks; [apply buffers_nop|]. cbn [map concat appendStrings]. apply buffers_seq; [apply buffers_string|assumption]. Qed.
Definition pair_bytes (kv : key * val) : bytes := vec (fst kv) ++ vec (snd kv).
Lemma buffers_pairs kvs : Buffers (appendPairs kvs) (concat (map pair_bytes kvs)).
Proof.
  induction kvs as [|[k v] kvs IH]; [apply buffers_nop|]. cbn [map concat appendPairs]. unfold pair_bytes at 1. cbn [fst snd].
  rewrite <- app_assoc. apply buffers_seq; [apply buffers_string|].
  apply buffers_seq; [apply buffers_bytes|exact IH].
Qed.

(** ** Requests on the wire *)
Definition body (r : request) : bytes :=
  match r with
  | Set_ k v | Append k v => vec k ++ vec v
  | CompareSet k e d => vec k ++ vec e ++ vec d
  | Get k | DeleteKey k | WatchKey k => vec k
  | Add k z => vec k ++ i64 z
  | Check ks | Wait ks | MultiGet ks => u64 (count ks) ++ concat (map vec ks)
  | GetNumKeys => []
  | MultiSet kvs => i64 (Z.of_nat (List.length kvs)) ++ concat (map pair_bytes kvs)
  end.
Definition wire_of (r : request) : bytes := le 1 (query_type r) ++ body r.

Lemma append_request_buffers r : (forall k, r <> WatchKey k) -> Buffers (append_request r) (body r).
Proof.
  intros Hw. destruct r; cbn [append_request body];
  repeat (apply buffers_seq); try apply buffers_string; try apply buffers_bytes; try apply buffers_value;
  try apply buffers_strings; try apply buffers_pairs; try apply buffers_nop.
  now destruct (Hw k).
Qed.

Lemma client_send_spec r ans w res : client_send r ans = (w, res) ->
  match res with Sent => w = wire_of r | _ => exists q, q <> [] /\ w ++ q = wire_of r end.
Proof.
  destruct (match r with WatchKey _ => true | _ => false end) eqn:Ew.
  - destruct r; try discriminate. unfold client_send.
    pose proof (puts_seq _ _ _ _ (puts_bytes (le 1 (query_type (WatchKey k)))) (puts_vector k)) as [P _].
    specialize (P [] ans). unfold sendValue.
    destruct (wseq _ _ _) as [[w' a'] [|f|]]; intros H; injection H as <- <-.
    + exact P.
    + destruct P as (p & q & E & Hq & Eo). exists q. split; [exact Hq|]. rewrite Eo. symmetry. exact E.
    + destruct P as (p & q & E & Hq & Eo). exists q. split; [exact Hq|]. rewrite Eo. symmetry. exact E.
  - assert (Hn : forall k, r <> WatchKey k) by (intros k ->; discriminate).
    destruct (buffers_flush) as [F Fe].
    pose proof (buffers_seq _ _ _ _ (append_request_buffers r Hn) F) as [B _].
    specialize (B (mkSB (le 1 (query_type r)) [] ans)). cbn [wire buffer app] in B.
    rewrite app_nil_r in B.
    assert (Ec : client_send r ans = (let '(s, res) := (append_request r ;> flush) (mkSB (le 1 (query_type r)) [] ans) in (wire s, res)))
      by (destruct r; try reflexivity; discriminate).
    rewrite Ec. unfold sseq in *. destruct (append_request r _) as [s1 r1] eqn:E1.
    destruct r1 as [|f1|].
    + specialize (Fe s1). destruct (flush s1) as [s2 [|f|]]; intros H; injection H as <- <-.
      * cbn in Fe. rewrite (Fe eq_refl), app_nil_r in B. exact B.
      * exact B.
      * exact B.
    + intros H; injection H as <- <-. exact B.
    + intros H; injection H as <- <-. exact B.
Qed.
Lemma client_send_live r ans : enough ans (List.length (wire_of r)) -> exists w, client_send r ans = (w, Sent).
Proof.
  intros H. destruct (match r with WatchKey _ => true | _ => false end) eqn:Ew.
  - destruct r; try discriminate. unfold client_send.
    pose proof (puts_seq _ _ _ _ (puts_bytes (le 1 (query_type (WatchKey k)))) (puts_vector k)) as [_ P].
    destruct (P [] ans 0) as (o & a & E & _); [rewrite Nat.add_0_r; exact H|].
    unfold sendValue. rewrite E. eexists; reflexivity.
  - assert (Hn : forall k, r <> WatchKey k) by (intros k ->; discriminate).
    destruct (buffers_flush) as [F Fe].
    pose proof (buffers_seq _ _ _ _ (append_request_buffers r Hn) F) as [_ B].
    destruct (B (mkSB (le 1 (query_type r)) [] ans) 0) as (s & E & _).
    { cbn [buffer sanswers]. rewrite app_nil_r, Nat.add_0_r. exact H. }
    exists (wire s). destruct r; try discriminate; unfold client_send; now rewrite E.
Qed.

(** ** Receiving *)
Definition Reads {A} (m : R A) (w : bytes) (a : A) (done : list act) : Prop :=
  (forall rest ans log, match m (mkR (w ++ rest) ans log) with
    | (s, Got a') => a' = a /\ arrived s = rest /\ acts s = log ++ done
    | (s, _) => exists p q, done = p ++ q /\ acts s = log ++ p
    end) /\
  (forall w1 w2 ans log, w = w1 ++ w2 -> w2 <> [] -> match m (mkR w1 ans log) with
    | (s, Got _) => False
    | (s, _) => exists p q, done = p ++ q /\ acts s = log ++ p /\ (done <> [] -> q <> [])
    end) /\
  (forall rest ans log n, enough ans (List.length w + n) ->
    exists s, m (mkR (w ++ rest) ans log) = (s, Got a) /\ enough (answers s) n).

Lemma recv_loop_full ans : forall w rest b s a r, w <> [] ->
  recv_loop ans (List.length w) (w ++ rest) = (b, s, a, r) ->
  match r with Got _ => b = w /\ s = rest | _ => True end.
Proof.
  induction ans as [|x ans IH]; intros w rest b s a r Hw H; cbn [recv_loop] in H.
  - injection H as <- <- <- <-. exact I.
  - destruct x as [k| | |e].
    + destruct (firstn (Nat.min k (List.length w)) (w ++ rest)) as [|y now] eqn:En.
      * injection H as <- <- <- <-. exact I.
      * assert (Hf : y :: now = firstn (Nat.min k (List.length w)) w).
        { rewrite <- En, firstn_app.
          replace (Nat.min k (List.length w) - List.length w) with 0 by lia. now rewrite app_nil_r. }
        assert (Hl : List.length (y :: now) = Nat.min k (List.length w)).
        { rewrite Hf. apply firstn_length_le. lia. }
        assert (Hs : skipn (List.length (y :: now)) (w ++ rest) = skipn (List.length (y :: now)) w ++ rest).
        { rewrite skipn_app. replace (List.length (y :: now) - List.length w) with 0 by lia. reflexivity. }
        rewrite Hs in H. pose proof (firstn_skipn (Nat.min k (List.length w)) w) as Efs.
        rewrite <- Hf, <- Hl in Efs.
        assert (Hd : List.length w - List.length (y :: now) = List.length (skipn (List.length (y :: now)) w)) by now rewrite skipn_length.
        rewrite Hd in H. destruct (skipn (List.length (y :: now)) w) as [|z w'] eqn:Ew.
        -- cbn in H. injection H as <- <- <- <-. rewrite app_nil_r in Efs. auto.
        -- cbn [List.length] in H. change (S (List.length w')) with (List.length (z :: w')) in H.
           destruct (recv_loop ans (List.length (z :: w')) ((z :: w') ++ rest)) as [[[m s2] a2] r2] eqn:E2.
           injection H as <- <- <- <-. apply IH in E2; [|discriminate].
           destruct r2; [|exact I|exact I]. destruct E2 as [-> ->]. split; [exact Efs|reflexivity].
    + eapply IH; eassumption.
    + injection H as <- <- <- <-. exact I.
    + injection H as <- <- <- <-. exact I.
Qed.
Lemma recv_loop_short ans : forall need stream b s a u, List.length stream < need ->
  recv_loop ans need stream <> (b, s, a, Got u).
Proof.
  induction ans as [|x ans IH]; intros need stream b s a u Hl H; cbn [recv_loop] in H; [discriminate|].
  destruct x as [k| | |e]; try discriminate; [|now apply IH in H].
  destruct (firstn (Nat.min k need) stream) as [|y now] eqn:En; [discriminate|].
  assert (L1 : List.length (y :: now) <= List.length stream) by (rewrite <- En, firstn_length; lia).
  destruct (need - List.length (y :: now)) as [|n'] eqn:Ed; [lia|].
  destruct (recv_loop ans (S n') (skipn (List.length (y :: now)) stream)) as [[[m s2] a2] r2] eqn:E2.
  injection H as <- <- <- ->. apply IH in E2; [exact E2|]. rewrite skipn_length. lia.
Qed.
Lemma recv_loop_live ans : forall w rest n, w <> [] -> enough ans (List.length w + n) ->
  exists s a, recv_loop ans (List.length w) (w ++ rest) = (w, s, a, Got tt) /\ enough a n.
Proof.
  induction ans as [|x ans IH]; intros w rest n Hw [F L].
  - destruct w; [congruence|]. simpl in L. lia.
  - inversion F as [|? ? Hx F']; subst. destruct x as [k| | |e]; simpl in Hx; try contradiction.
    + destruct (recv_loop (Moved k :: ans) (List.length w) (w ++ rest)) as [[[b s] a] r] eqn:E.
      assert (G : r = Got tt /\ enough a n).
      { cbn [recv_loop] in E. cbn in L.
        destruct w as [|y w]; [congruence|]. destruct k as [|k]; [congruence|].
        cbn [List.length Nat.min app firstn] in E.
        assert (Hf : firstn (Nat.min k (List.length w)) (w ++ rest) = firstn (Nat.min k (List.length w)) w).
        { rewrite firstn_app. replace (Nat.min k (List.length w) - List.length w) with 0 by lia. now rewrite app_nil_r. }
        rewrite Hf in E.
        assert (Hl : List.length (firstn (Nat.min k (List.length w)) w) = Nat.min k (List.length w)) by (apply firstn_length_le; lia).
        cbn [List.length skipn] in E. rewrite Hl in E. cbn [Nat.sub] in E.
        assert (Hs : skipn (Nat.min k (List.length w)) (w ++ rest) = skipn (Nat.min k (List.length w)) w ++ rest).
        { rewrite skipn_app. replace (Nat.min k (List.length w) - List.length w) with 0 by lia. reflexivity. }
        rewrite Hs in E.
        assert (Hd : List.length w - Nat.min k (List.length w) = List.length (skipn (Nat.min k (List.length w)) w)) by now rewrite skipn_length.
        rewrite Hd in E. destruct (skipn (Nat.min k (List.length w)) w) as [|z w'] eqn:Ew.
        - cbn in E. injection E as <- <- <- <-. split; [reflexivity|]. split; [exact F'|]. cbn in L. lia.
        - cbn [List.length] in E. change (S (List.length w')) with (List.length (z :: w')) in E.
          destruct (IH (z :: w') rest n) as (s2 & a2 & E2 & En2); [discriminate| |].
          { split; [exact F'|]. cbn [List.length] in *. lia. }
          rewrite E2 in E. injection E as <- <- <- <-. auto. }
      destruct G as [-> Ha]. apply recv_loop_full in E as E'; [|exact Hw]. destruct E' as [-> ->].
      exists rest, a. split; [reflexivity|exact Ha].
    + cbn [recv_loop]. apply IH; [exact Hw|]. split; assumption.
Qed.

Lemma reads_bytes w : Reads (recvBytes (List.length w)) w w [].
Proof.
  split; [|split].
  - intros rest ans log. unfold recvBytes. destruct w as [|x w].
    + cbn. now rewrite app_nil_r.
    + cbn [List.length arrived answers acts]. change (S (List.length w)) with (List.length (x :: w)).
      destruct (recv_loop ans (List.length (x :: w)) ((x :: w) ++ rest)) as [[[b s] a] r] eqn:E.
      apply recv_loop_full in E; [|discriminate]. destruct r.
      * cbn. rewrite app_nil_r. destruct E as [-> ->]. auto.
      * exists [], []. cbn. rewrite app_nil_r. auto.
      * exists [], []. cbn. rewrite app_nil_r. auto.
  - intros w1 w2 ans log E Hw2. unfold recvBytes.
    assert (L : List.length w1 < List.length w).
    { rewrite E, app_length. destruct w2; [congruence|]. cbn [List.length]. lia. }
    destruct (List.length w) as [|n] eqn:En; [lia|]. cbn [arrived answers acts].
    destruct (recv_loop ans (S n) w1) as [[[b s] a] r] eqn:Er. destruct r.
    + exfalso. exact (recv_loop_short _ _ _ _ _ _ _ L Er).
    + exists [], []. cbn. rewrite app_nil_r. auto.
    + exists [], []. cbn. rewrite app_nil_r. auto.
  - intros rest ans log n H. unfold recvBytes. destruct w as [|x w].
    + cbn. eexists. split; [reflexivity|]. exact H.
    + cbn [List.length arrived answers acts]. change (S (List.length w)) with (List.length (x :: w)).
      destruct (recv_loop_live ans (x :: w) rest n) as (s & a & E & Ha); [discriminate|exact H|].
      rewrite E. eexists. split; [reflexivity|exact Ha].
Qed.
Lemma reads_ret {A} (a : A) : Reads (rret a) [] a [].
Proof.
  split; [|split].
  - intros. cbn. now rewrite app_nil_r.
  - intros w1 w2 ans log E Hw. destruct w1; [|discriminate]. destruct w2; [congruence|discriminate].
  - intros rest ans log n H. eexists. split; [reflexivity|exact H].
Qed.
Lemma reads_perform a : Reads (perform a) [] tt [a].
Proof.
  split; [|split].
  - intros. cbn. auto.
  - intros w1 w2 ans log E Hw. destruct w1; [|discriminate]. destruct w2; [congruence|discriminate].
  - intros rest ans log n H. eexists. split; [reflexivity|exact H].
Qed.
Lemma reads_bind {A B} (m : R A) (f : A -> R B) w w' a b d d' :
  (w' = [] \/ d' <> [] \/ d = []) -> Reads m w a d -> Reads (f a) w' b d' -> Reads (rbind m f) (w ++ w') b (d ++ d').
Proof.
  intros Hside (M1 & M2 & M3) (F1 & F2 & F3).
  assert (K1 : forall q, (d <> [] -> q <> []) -> d ++ d' <> [] -> q ++ d' <> []).
  { intros q Hq Hn Hx. apply app_eq_nil in Hx as [-> Hd']. subst d'. rewrite app_nil_r in Hn. now apply Hq. }
  assert (K2 : forall q : list act, w' <> [] -> (d' <> [] -> q <> []) -> d ++ d' <> [] -> q <> []).
  { intros q Hw' Hq Hn. destruct Hside as [Hs|[Hs|Hs]]; [congruence|auto|]. subst d. cbn in Hn. auto. }
  split; [|split].
  - intros rest ans log. unfold rbind. rewrite <- app_assoc. specialize (M1 (w' ++ rest) ans log).
    destruct (m (mkR (w ++ w' ++ rest) ans log)) as [[ar an ac] [a'|e|]].
    + destruct M1 as (-> & Ha & Hc). cbn in Ha, Hc. subst ar ac.
      specialize (F1 rest an (log ++ d)).
      destruct (f a (mkR (w' ++ rest) an (log ++ d))) as [s2 [b'|e|]].
      * destruct F1 as (-> & -> & ->). now rewrite app_assoc.
      * destruct F1 as (p & q & -> & ->). exists (d ++ p), q. now rewrite !app_assoc.
      * destruct F1 as (p & q & -> & ->). exists (d ++ p), q. now rewrite !app_assoc.
    + destruct M1 as (p & q & -> & ->). exists p, (q ++ d'). now rewrite !app_assoc.
    + destruct M1 as (p & q & -> & ->). exists p, (q ++ d'). now rewrite !app_assoc.
  - intros w1 w2 ans log E Hw2. unfold rbind.
    destruct (le_lt_dec (List.length w) (List.length w1)) as [Hl|Hl].
    + assert (Hx : exists u, w1 = w ++ u /\ w' = u ++ w2).
      { exists (skipn (List.length w) w1). pose proof (f_equal (firstn (List.length w)) E) as Ef.
        rewrite firstn_app, firstn_all, Nat.sub_diag, firstn_app in Ef. cbn in Ef. rewrite app_nil_r in Ef.
        replace (List.length w - List.length w1) with 0 in Ef by lia. cbn in Ef. rewrite app_nil_r in Ef.
        assert (E1 : w1 = w ++ skipn (List.length w) w1) by (rewrite Ef at 1; symmetry; apply firstn_skipn).
        split; [exact E1|]. rewrite E1 in E. rewrite <- app_assoc in E. now apply app_inv_head in E. }
      destruct Hx as (u & -> & Ew').
      specialize (M1 u ans log). destruct (m (mkR (w ++ u) ans log)) as [[ar an ac] [a'|e|]].
      * destruct M1 as (-> & Ha & Hc). cbn in Ha, Hc. subst ar ac.
        specialize (F2 u w2 an (log ++ d) Ew' Hw2).
        destruct (f a (mkR u an (log ++ d))) as [s2 [b'|e|]]; [exact F2| |].
        -- destruct F2 as (p & q & Ed & -> & Hq). exists (d ++ p), q. split; [now rewrite Ed, app_assoc|]. split; [now rewrite app_assoc|]. apply K2; [rewrite Ew'; destruct u, w2; cbn; congruence|exact Hq].
        -- destruct F2 as (p & q & Ed & -> & Hq). exists (d ++ p), q. split; [now rewrite Ed, app_assoc|]. split; [now rewrite app_assoc|]. apply K2; [rewrite Ew'; destruct u, w2; cbn; congruence|exact Hq].
      * destruct M1 as (p & q & Ed & ->). exists p, (q ++ d'). split; [now rewrite Ed, app_assoc|]. split; [reflexivity|]. intros Hn Hx. apply app_eq_nil in Hx as [-> Hd']. destruct Hside as [Hs|[Hs|Hs]]; [rewrite Hs in Ew'; destruct u, w2; cbn in Ew'; congruence|congruence|]. rewrite Hd', Hs in Hn. now apply Hn.
      * destruct M1 as (p & q & Ed & ->). exists p, (q ++ d'). split; [now rewrite Ed, app_assoc|]. split; [reflexivity|]. intros Hn Hx. apply app_eq_nil in Hx as [-> Hd']. destruct Hside as [Hs|[Hs|Hs]]; [rewrite Hs in Ew'; destruct u, w2; cbn in Ew'; congruence|congruence|]. rewrite Hd', Hs in Hn. now apply Hn.
    + assert (Hx : exists u, w = w1 ++ u /\ u <> []).
      { exists (skipn (List.length w1) w). pose proof (f_equal (firstn (List.length w1)) E) as Ef.
        rewrite !firstn_app, firstn_all, Nat.sub_diag in Ef. cbn in Ef. rewrite app_nil_r in Ef.
        replace (List.length w1 - List.length w) with 0 in Ef by lia. cbn in Ef. rewrite app_nil_r in Ef.
        split; [rewrite <- Ef at 1; symmetry; apply firstn_skipn|].
        intros Hn. pose proof (skipn_length (List.length w1) w) as Hk. rewrite Hn in Hk. cbn in Hk. lia. }
      destruct Hx as (u & Ew & Hu). specialize (M2 w1 u ans log Ew Hu).
      destruct (m (mkR w1 ans log)) as [[ar an ac] [a'|e|]]; [contradiction| |].
      * destruct M2 as (p & q & Ed & -> & Hq). exists p, (q ++ d'). split; [now rewrite Ed, app_assoc|]. split; [reflexivity|]. apply K1; exact Hq.
      * destruct M2 as (p & q & Ed & -> & Hq). exists p, (q ++ d'). split; [now rewrite Ed, app_assoc|]. split; [reflexivity|]. apply K1; exact Hq.
  - intros rest ans log n H. rewrite app_length, <- Nat.add_assoc in H. rewrite <- app_assoc.
    destruct (M3 (w' ++ rest) ans log (List.length w' + n) H) as (s & E & En).
    specialize (M1 (w' ++ rest) ans log). rewrite E in M1. destruct M1 as (_ & Ha & Hc).
    destruct s as [ar an ac]. cbn in *. subst ar ac.
    destruct (F3 rest an (log ++ d) n En) as (s2 & E2 & En2).
    exists s2. unfold rbind. rewrite E. auto.
Qed.
Lemma reads_bind0 {A B} (m : R A) (f : A -> R B) w w' a b d' :
  Reads m w a [] -> Reads (f a) w' b d' -> Reads (rbind m f) (w ++ w') b d'.
Proof. intros M F. exact (reads_bind m f w w' a b [] d' (or_intror (or_intror eq_refl)) M F). Qed.
Lemma reads_map {A B} (m : R A) (f : A -> B) w a d : Reads m w a d -> Reads (rbind m (fun x => rret (f x))) w (f a) d.
Proof.
  intros M. rewrite <- (app_nil_r w), <- (app_nil_r d). apply reads_bind with (a := a); [now left|exact M|apply reads_ret].
Qed.
Lemma reads_then {A B} (m : R A) (f : A -> R B) w a b d' : Reads m w a [] -> Reads (f a) [] b d' -> Reads (rbind m f) w b d'.
Proof. intros M F. rewrite <- (app_nil_r w). now apply reads_bind0 with (a := a). Qed.

Lemma reads_fixed k n : Reads (recvBytes k) (le k n) (le k n) [].
Proof. rewrite <- (le_length k n) at 1. apply reads_bytes. Qed.
Lemma reads_byte n : (n < 256)%N -> Reads recvByte (le 1 n) n [].
Proof. intros H. rewrite <- (unle_1 n H) at 2. apply (reads_map (recvBytes 1) unle). apply reads_fixed. Qed.
Lemma reads_u64 n : (n < 2 ^ 64)%N -> Reads recvU64 (u64 n) n [].
Proof. intros H. rewrite <- (unle_u64 n H) at 2. apply (reads_map (recvBytes 8) unle). apply reads_fixed. Qed.
Lemma reads_i64 z : (- 2 ^ 63 <= z < 2 ^ 63)%Z -> Reads recvI64 (i64 z) z [].
Proof.
  intros H. rewrite <- (to_i64_i64 z H) at 2. apply (reads_map (recvBytes 8) (fun b => to_i64 (unle b))).
  apply reads_fixed.
Qed.
Lemma reads_i64_u64 n : (Z.of_nat n < 2 ^ 63)%Z -> Reads recvU64 (i64 (Z.of_nat n)) (N.of_nat n) [].
Proof.
  intros H. unfold i64. rewrite Z.mod_small by lia. rewrite <- nat_N_Z, N2Z.id. apply reads_u64.
  apply N2Z.inj_lt. rewrite nat_N_Z. change (Z.of_N (2 ^ 64)) with (2 ^ 64)%Z. lia.
Qed.
Definition fits (b : bytes) : Prop := (size b < 2 ^ 64)%N.
Lemma reads_vector b : fits b -> Reads recvVector (vec b) b [].
Proof.
  intros H. unfold recvVector, vec. apply reads_bind0 with (a := size b); [now apply reads_u64|].
  unfold size. rewrite Nat2N.id. apply reads_bytes.
Qed.
Lemma reads_string b : fits b -> Reads recvString (vec b) b [].
Proof. apply reads_vector. Qed.
Lemma reads_strings ks : Forall fits ks -> Reads (recvStrings (List.length ks)) (concat (map vec ks)) ks [].
Proof.
  induction 1 as [|k ks Hk _ IH]; [apply reads_ret|]. cbn [map concat List.length recvStrings recvVectors multiGetLoop].
  apply reads_bind0 with (a := k); [now apply reads_string|]. exact (reads_map _ (cons k) _ _ _ IH).
Qed.
Lemma reads_vectors ks : Forall fits ks -> Reads (recvVectors (List.length ks)) (concat (map vec ks)) ks [].
Proof.
  induction 1 as [|k ks Hk _ IH]; [apply reads_ret|]. cbn [map concat List.length recvStrings recvVectors multiGetLoop].
  apply reads_bind0 with (a := k); [now apply reads_vector|]. exact (reads_map _ (cons k) _ _ _ IH).
Qed.
Lemma reads_multiGet ks : Forall fits ks -> Reads (multiGetLoop (List.length ks)) (concat (map vec ks)) tt (map GetOne ks).
Proof.
  induction 1 as [|k ks Hk _ IH]; [apply reads_ret|]. cbn [map concat List.length recvStrings recvVectors multiGetLoop].
  apply reads_bind0 with (a := k); [now apply reads_string|].
  apply (reads_bind _ _ [] _ tt _ [GetOne k] _); [|apply reads_perform|exact IH].
  destruct ks; [now left|right; left; discriminate].
Qed.
Lemma reads_multiSet kvs : Forall (fun p => fits (fst p) /\ fits (snd p)) kvs ->
  Reads (multiSetLoop (List.length kvs)) (concat (map pair_bytes kvs)) tt (map (fun p => SetOne (fst p) (snd p)) kvs).
Proof.
  induction 1 as [|[k v] kvs [Hk Hv] _ IH]; [apply reads_ret|]. cbn in Hk, Hv. cbn [map concat List.length multiSetLoop]. unfold pair_bytes at 1. cbn [fst snd].
  rewrite <- app_assoc.
  apply reads_bind0 with (a := k); [now apply reads_string|].
  apply reads_bind0 with (a := v); [now apply reads_vector|].
  apply (reads_bind _ _ [] _ tt _ [SetOne k v] _); [|apply reads_perform|exact IH].
  destruct kvs; [now left|right; left; discriminate].
Qed.
