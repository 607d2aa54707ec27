(** * C36: the rendezvous store is a sequential map

    How to read.  A history lists, newest first, everything that happened at the
    server: connections, hang-ups, and the requests in the order in which they
    were processed, each with how it ended and the messages sent while it was
    processed.  [explained h m] says that a plain map from keys to values
    accounts for the history and contains [m] at its end: each completed request
    got the reply ([replies]) and had the effect ([next]) it has on that map. *)
From Coq Require Import List Bool Arith ZArith Ascii String Lia.
From Verif Require Import Dict PyStr SizeModel SizeProps StoreModel.
Import ListNotations.
Open Scope list_scope.
Open Scope nat_scope.

(** ** Specification *)
Definition contents := key -> option val.
Definition assign (m : contents) (k : key) (x : option val) : contents :=
  fun k' => if k =? k' then x else m k'.
Definition present (m : contents) (k : key) : Prop := exists v, m k = Some v.

(** The number a counter holds, and its value after adding [z]. *)
Definition total (m : contents) (k : key) (z : Z) : option Z :=
  match m k with
  | None => Some z
  | Some v => match stoll v with Some y => Some (wrap64 (z + y)) | None => None end
  end.

(** Effect of a completed request. *)
Fixpoint assign_all (m : contents) (kvs : list (key * val)) : contents :=
  match kvs with [] => m | (k, v) :: kvs => assign_all (assign m k (Some v)) kvs end.
Definition next (m : contents) (r : request) : contents :=
  match r with
  | Set_ k v => assign m k (Some v)
  | CompareSet k e d =>
      match m k with
      | None => match e with [] => assign m k (Some d) | _ => m end
      | Some x => if text_eqb x e then assign m k (Some d) else m
      end
  | Add k z => match total m k z with Some t => assign m k (Some (to_string t)) | None => m end
  | DeleteKey k => assign m k None
  | Append k v => assign m k (Some (match m k with Some o => o ++ v | None => v end))
  | MultiSet kvs => assign_all m kvs
  | Get _ | Check _ | Wait _ | GetNumKeys | WatchKey _ | MultiGet _ => m
  end.

(** Reply to a completed request. *)
Definition replies (m : contents) (r : request) (out : list msg) : Prop :=
  match r with
  | Set_ _ _ | Append _ _ | MultiSet _ => out = []
  | CompareSet k e d =>
      (* the value after the operation, or the expected one if there is none *)
      out = [MBytes (match next m r k with Some x => x | None => e end)]
  | Get k => exists v, m k = Some v /\ out = [MBytes v]
  | Add k z => exists t, total m k z = Some t /\ out = [MValue t]
  | Check ks => exists b, out = [MCheck b] /\ (b = true <-> forall k, In k ks -> present m k)
  | Wait ks => ((forall k, In k ks -> present m k) /\ out = [MStop]) \/
               (~ (forall k, In k ks -> present m k) /\ out = [])
  | GetNumKeys => exists ks, NoDup ks /\ (forall k, In k ks <-> present m k) /\ out = [MValue (Z.of_nat (List.length ks))]
  | WatchKey _ => out = [MRegistered]
  | DeleteKey k => (present m k /\ out = [MValue 1]) \/ (~ present m k /\ out = [MValue 0])
  | MultiGet ks => exists vs, Forall2 (fun k v => m k = Some v) ks vs /\ out = map MBytes vs
  end.

(** Requests the store cannot answer: it closes the connection instead. *)
Definition unanswerable (m : contents) (r : request) : Prop :=
  match r with
  | Get k => ~ present m k
  | MultiGet ks => exists k, In k ks /\ ~ present m k
  | Add k z => total m k z = None
  | _ => False
  end.

(** A request during which sending failed has had its effect, or none; a
    [multi_set] may have set a part of its keys. *)
Definition partly (m : contents) (r : request) (m' : contents) : Prop :=
  (forall k, m' k = m k) \/ (forall k, m' k = next m r k) \/
  exists pre suf, r = MultiSet (pre ++ suf) /\ forall k, m' k = assign_all m pre k.

(** The messages sent to the requester as its reply: all but notifications of
    watched keys and the answers to earlier waits. *)
Definition is_reply (r : request) (m : msg) : bool :=
  match m with
  | MWatch _ _ _ _ => false
  | MStop => match r with Wait _ => true | _ => false end
  | _ => true
  end.
Definition direct (c : sock) (r : request) (out : list (sock * msg)) : list msg :=
  map snd (filter (fun cm => (fst cm =? c) && is_reply r (snd cm)) out).

Inductive explained : list entry -> contents -> Prop :=
| x_start : explained [] (fun _ => None)
| x_connect h m c st out : explained h m -> explained (mkEntry (Connect c) st out :: h) m
| x_hangup h m c st out : explained h m -> explained (mkEntry (Hangup c) st out :: h) m
| x_done h m c r dead out :
    explained h m -> replies m r (direct c r out) ->
    explained (mkEntry (Request c r dead) Done out :: h) (next m r)
| x_refused h m c r dead out :
    explained h m -> unanswerable m r ->
    explained (mkEntry (Request c r dead) Refused out :: h) m
| x_failed h m c r dead out m' :
    explained h m -> partly m r m' ->
    explained (mkEntry (Request c r dead) SendFailed out :: h) m'.

(** ** Lemmas: numbers as text *)
Lemma digit_of_ok z : (0 <= z < 10)%Z -> isdigit (digit_of z) = true /\ (Z.of_nat (nat_of_ascii (digit_of z)) - 48 = z)%Z.
Proof.
  intros H. assert (z = 0 \/ z = 1 \/ z = 2 \/ z = 3 \/ z = 4 \/ z = 5 \/ z = 6 \/ z = 7 \/ z = 8 \/ z = 9)%Z as E by lia.
  repeat (destruct E as [->|E]; [split; reflexivity|]). subst z. split; reflexivity.
Qed.

Definition decf := fun (acc : Z) (c : ascii) => (10 * acc + (Z.of_nat (nat_of_ascii c) - 48))%Z.

Lemma udigits_ok f : forall z acc, (0 <= z < 2 ^ Z.of_nat f)%Z -> (0 < f)%nat ->
  Forall (fun c => isdigit c = true) acc ->
  Forall (fun c => isdigit c = true) (udigits f z acc) /\ udigits f z acc <> [] /\
  fold_left decf (udigits f z acc) 0%Z = fold_left decf acc z.
Proof.
  induction f as [|f IH]; intros z acc B P A; [lia|]. cbn [udigits].
  assert (M := Z.mod_pos_bound z 10 ltac:(lia)). destruct (digit_of_ok (z mod 10) M) as [D1 D2].
  destruct (z <? 10)%Z eqn:L.
  - apply Z.ltb_lt in L. split; [constructor; auto|]. split; [discriminate|]. cbn [fold_left].
    f_equal. unfold decf. rewrite D2, Z.mod_small; lia.
  - apply Z.ltb_ge in L. rewrite Nat2Z.inj_succ, Z.pow_succ_r in B by lia.
    assert (Q : (0 <= z / 10 < 2 ^ Z.of_nat f)%Z).
    { split; [apply Z.div_pos; lia|]. apply Z.div_lt_upper_bound; lia. }
    assert (P' : (0 < f)%nat).
    { destruct f; [|lia]. simpl in Q. assert (0 < z / 10)%Z by (apply Z.div_str_pos; lia). lia. }
    destruct (IH (z / 10)%Z (digit_of (z mod 10) :: acc) Q P') as (I1 & I2 & I3); [constructor; auto|].
    split; auto. split; auto. rewrite I3. cbn [fold_left]. f_equal. unfold decf. rewrite D2.
    assert (E := Z.div_mod z 10 ltac:(lia)). lia.
Qed.

Lemma log2_fuel u : (0 <= u)%Z -> (0 <= u < 2 ^ Z.of_nat (S (Z.to_nat (Z.log2 u))))%Z.
Proof.
  intros H. split; auto. rewrite Nat2Z.inj_succ, Z2Nat.id by apply Z.log2_nonneg.
  destruct (Z.eq_dec u 0) as [->|N]; [reflexivity|]. apply Z.log2_spec. lia.
Qed.

Lemma not_space_digit c : isdigit c = true -> c_space c = false /\ Ascii.eqb c "-"%char = false /\ Ascii.eqb c "+"%char = false.
Proof. chars c; intros H; try discriminate H; repeat split. Qed.

Lemma stoll_to_string z : (INT64_MIN <= z <= INT64_MAX)%Z -> stoll (to_string z) = Some z.
Proof.
  intros R. unfold to_string.
  destruct (udigits_ok (S (Z.to_nat (Z.log2 (Z.abs z)))) (Z.abs z) []) as (F & NE & V);
    [apply log2_fuel; lia|lia|constructor|].
  set (d := udigits _ _ _) in *. cbn [fold_left] in V.
  assert (SP : fst (span isdigit d) = d).
  { rewrite <- (app_nil_r d) at 1. rewrite span_app; auto. discriminate. }
  assert (IR : in_int64 z = true) by (unfold in_int64; apply andb_true_iff; split; apply Z.leb_le; lia).
  clearbody d. unfold stoll. destruct (z <? 0)%Z eqn:S.
  - apply Z.ltb_lt in S. cbn [skip_space]. change (c_space "-"%char) with false. cbn match.
    change (Ascii.eqb "-"%char "-"%char) with true. cbn match. rewrite SP.
    destruct d as [|c d']; [congruence|]. unfold dec. fold decf. rewrite V.
    replace (-1 * Z.abs z)%Z with z by lia. now rewrite IR.
  - apply Z.ltb_ge in S. destruct d as [|c d']; [congruence|]. inversion F as [|? ? HC _]; subst.
    destruct (not_space_digit c HC) as (N1 & N2 & N3). cbn [skip_space]. rewrite N1. cbn match. rewrite N2, N3.
    cbn match. rewrite SP. unfold dec. fold decf. rewrite V. replace (1 * Z.abs z)%Z with z by lia. now rewrite IR.
Qed.

Lemma wrap64_id z : (INT64_MIN <= z <= INT64_MAX)%Z -> wrap64 z = z.
Proof.
  unfold wrap64, INT64_MIN, INT64_MAX. change (2 ^ 63)%Z with 9223372036854775808%Z.
  change (2 ^ 64)%Z with 18446744073709551616%Z. intros R. rewrite Z.mod_small; lia.
Qed.

(** ** Lemmas: computations that only wake and notify *)
Definition noisy (cm : sock * msg) : Prop :=
  match snd cm with MStop | MWatch _ _ _ _ => True | _ => False end.
Definition Noise (X : M) : Prop := forall s o, exists s' new st,
  X (s, o) = ((s', new ++ o), st) /\ store s' = store s /\ Forall noisy new /\ st <> Refused.

Lemma noise_ret : Noise ret.
Proof. intros s o. exists s, [], Done. repeat split; auto. discriminate. Qed.
Lemma noise_seq X Y : Noise X -> Noise Y -> Noise (X ;; Y).
Proof.
  intros HX HY s o. destruct (HX s o) as (s1 & n1 & st1 & E1 & S1 & N1 & R1).
  unfold seq. rewrite E1. destruct st1; try (exists s1, n1; eexists; repeat split; eauto; fail).
  destruct (HY s1 (n1 ++ o)) as (s2 & n2 & st2 & E2 & S2 & N2 & R2). rewrite E2.
  exists s2, (n2 ++ n1), st2. rewrite app_assoc. repeat split; auto; [congruence|]. apply Forall_app. auto.
Qed.
Lemma noise_with f : (forall s, Noise (f s)) -> Noise (with_st f).
Proof. intros H s o. unfold with_st. apply H. Qed.
Lemma noise_upd f : (forall s, store (f s) = store s) -> Noise (upd f).
Proof. intros H s o. exists (f s), [], Done. repeat split; auto. discriminate. Qed.
Lemma noise_send dead c m : (match m with MStop | MWatch _ _ _ _ => True | _ => False end) -> Noise (send dead c m).
Proof.
  intros H s o. unfold send. destruct (has (opened (fst (s, o))) c && negb (has dead c)).
  - exists s, [(c, m)], Done. repeat split; auto. discriminate.
  - exists s, [], SendFailed. repeat split; auto. discriminate.
Qed.
Lemma noise_wake_loop dead l : Noise (wake_loop dead l).
Proof.
  induction l as [|c l IH]; [apply noise_ret|]. cbn [wake_loop]. apply noise_with. intros s.
  apply noise_seq; [apply noise_upd; reflexivity|]. apply noise_seq; auto.
  destruct (decr (get_awaited s c) =? 0)%Z; [apply noise_send; exact I|apply noise_ret].
Qed.
Lemma noise_wakeup dead k : Noise (wakeup dead k).
Proof.
  apply noise_with. intros s. destruct (find (waiting s) k); [|apply noise_ret].
  apply noise_seq; [apply noise_wake_loop|apply noise_upd; reflexivity].
Qed.
Lemma noise_notify dead k t o n : Noise (notify dead k t o n).
Proof.
  apply noise_with. intros s. induction (watchers s k) as [|c l IH]; [apply noise_ret|].
  cbn [notify_loop]. apply noise_seq; auto. apply noise_send. exact I.
Qed.

Definition keeps_replies (r : request) := match r with Wait _ => false | _ => true end.

Lemma direct_noise c r new : keeps_replies r = true -> Forall noisy new -> direct c r (rev new) = [].
Proof.
  intros K N. unfold direct.
  replace (filter _ (rev new)) with (@nil (sock * msg)); auto.
  symmetry. apply Forall_rev in N. induction N as [|[s m] l H N IH]; auto.
  cbn [filter fst snd]. rewrite IH. unfold noisy in H. cbn [snd] in H.
  destruct m; try destruct H; cbn [is_reply]; destruct r; try discriminate K; now rewrite andb_false_r.
Qed.

Lemma direct_app c r a b : direct c r (a ++ b) = direct c r a ++ direct c r b.
Proof. unfold direct. now rewrite filter_app, map_app. Qed.

Lemma direct_one c r m : is_reply r m = true -> direct c r [(c, m)] = [m].
Proof. intros H. unfold direct. cbn [filter fst snd]. now rewrite Nat.eqb_refl, H. Qed.

(** Several completed noisy computations and one reply. *)
Lemma seq_run (X Y : M) s o s' o' st : (X ;; Y) (s, o) = ((s', o'), st) ->
  (exists s1 o1, X (s, o) = ((s1, o1), Done) /\ Y (s1, o1) = ((s', o'), st)) \/
  (st <> Done /\ X (s, o) = ((s', o'), st)).
Proof.
  unfold seq. destruct (X (s, o)) as [[s1 o1] st1]. destruct st1; intros H; [left; eauto| |]; right; inversion H; subst; split; auto; discriminate.
Qed.

Lemma find_put {V} (d : list (nat * V)) k v k' : find (put d k v) k' = if k =? k' then Some v else find d k'.
Proof. unfold find, put. apply (gget_gset _ Nat.eqb_spec). Qed.
Lemma find_erase {V} (d : list (nat * V)) k k' : find (erase d k) k' = if k =? k' then None else find d k'.
Proof. unfold find, erase. apply (gget_gdel _ Nat.eqb_spec). Qed.

(** What a request does, in terms of the map. *)
Definition Correct (c : sock) (r : request) (X : M) : Prop := forall s o s' o' st m,
  NoDup (gkeys (store s)) -> (forall k, find (store s) k = m k) ->
  X (s, o) = ((s', o'), st) ->
  NoDup (gkeys (store s')) /\ exists new, o' = new ++ o /\
  match st with
  | Done => (forall k, find (store s') k = next m r k) /\ replies m r (direct c r (rev new))
  | Refused => (forall k, find (store s') k = m k) /\ unanswerable m r
  | SendFailed => partly m r (find (store s'))
  end.

Lemma send_run dead c m s o s' o' st : send dead c m (s, o) = ((s', o'), st) ->
  s' = s /\ ((st = Done /\ o' = (c, m) :: o) \/ (st = SendFailed /\ o' = o)).
Proof.
  unfold send. destruct (has (opened (fst (s, o))) c && negb (has dead c)); intros H; inversion H; subst; auto.
Qed.

Lemma noise_run X s o s' o' st : Noise X -> X (s, o) = ((s', o'), st) ->
  exists new, o' = new ++ o /\ store s' = store s /\ Forall noisy new /\ st <> Refused.
Proof.
  intros N E. destruct (N s o) as (s1 & n1 & st1 & E1 & ? & ? & ?). rewrite E in E1. inversion E1; subst. eauto.
Qed.

Lemma upd_run f s o s' o' st : upd f (s, o) = ((s', o'), st) -> s' = f s /\ o' = o /\ st = Done.
Proof. intros H. inversion H; subst. auto. Qed.

Lemma NoDup_put d k (v : val) : NoDup (gkeys d) -> NoDup (gkeys (put d k v)).
Proof. apply (NoDup_gset _ Nat.eqb_spec). Qed.
Lemma NoDup_erase (d : list (key * val)) k : NoDup (gkeys d) -> NoDup (gkeys (erase d k)).
Proof. apply (NoDup_gdel _ Nat.eqb_spec). Qed.

Lemma assign_ok (d : list (key * val)) m k v : (forall k, find d k = m k) -> forall k', find (put d k v) k' = assign m k (Some v) k'.
Proof. intros H k'. rewrite find_put. unfold assign. now rewrite H. Qed.

(** Setting a key and then only waking and notifying. *)
Lemma write_noise dead k v Y s o s' o' st m :
  NoDup (gkeys (store s)) -> (forall k, find (store s) k = m k) -> Noise Y ->
  (upd (set_store (fun d => put d k v)) ;; wakeup dead k ;; Y) (s, o) = ((s', o'), st) ->
  NoDup (gkeys (store s')) /\ (forall k', find (store s') k' = assign m k (Some v) k') /\
  exists new, o' = new ++ o /\ Forall noisy new /\ st <> Refused.
Proof.
  intros ND EQ NY H. apply seq_run in H. destruct H as [(s1 & o1 & E & H)|(N & E)].
  - apply upd_run in E. destruct E as (-> & -> & _).
    apply noise_run in H; [|apply noise_seq; auto using noise_wakeup].
    destruct H as (new & -> & ST & NN & R). rewrite ST. cbn [store set_store].
    split; [now apply NoDup_put|]. split; [now apply assign_ok|]. eauto.
  - apply upd_run in E. destruct E as (_ & _ & ->). congruence.
Qed.

Lemma correct_do_set dead c k v : Correct c (Set_ k v) (do_set dead k v).
Proof.
  intros s o s' o' st m ND EQ H. unfold do_set, with_st in H. cbn [fst] in H.
  apply (write_noise dead k v _ _ _ _ _ _ m) in H; auto; [|destruct (find (store s) k); apply noise_notify].
  destruct H as (ND' & EQ' & new & -> & NN & R). split; auto. exists new. split; auto.
  destruct st; [|congruence|].
  - split; auto. cbn [replies]. now apply direct_noise.
  - right. left. exact EQ'.
Qed.

Lemma correct_append dead c k v : Correct c (Append k v) (append dead k v).
Proof.
  intros s o s' o' st m ND EQ H. unfold append, with_st in H. cbn [fst] in H. rewrite EQ in H.
  assert (G : NoDup (gkeys (store s')) /\ (forall k', find (store s') k' = next m (Append k v) k') /\
    exists new, o' = new ++ o /\ Forall noisy new /\ st <> Refused).
  { cbn [next]. destruct (m k) as [x|]; apply (write_noise dead k _ _ _ _ _ _ _ m) in H; auto using noise_notify. }
  destruct G as (ND' & EQ' & new & -> & NN & R). split; auto. exists new. split; auto.
  destruct st; [|congruence|].
  - split; auto. cbn [replies]. now apply direct_noise.
  - right. left. exact EQ'.
Qed.

Lemma correct_reply dead c r m0 : (forall m, next m r = m) -> is_reply r m0 = true ->
  forall s o s' o' st m, NoDup (gkeys (store s)) -> (forall k, find (store s) k = m k) ->
  replies m r [m0] -> send dead c m0 (s, o) = ((s', o'), st) ->
  NoDup (gkeys (store s')) /\ exists new, o' = new ++ o /\
  match st with
  | Done => (forall k, find (store s') k = next m r k) /\ replies m r (direct c r (rev new))
  | Refused => (forall k, find (store s') k = m k) /\ unanswerable m r
  | SendFailed => partly m r (find (store s'))
  end.
Proof.
  intros NX IR s o s' o' st m ND EQ RP H. apply send_run in H. destruct H as (-> & [(-> & ->)|(-> & ->)]); split; auto.
  - exists [(c, m0)]. split; auto. split; [intros k; now rewrite NX|]. cbn [rev app]. now rewrite direct_one.
  - exists []. split; auto. left. auto.
Qed.

Ltac reply := eapply correct_reply; [reflexivity| |eassumption|eassumption| |eassumption]; [reflexivity|].

Lemma correct_get dead c k : Correct c (Get k) (get dead c k).
Proof.
  intros s o s' o' st m ND EQ H. unfold get, with_st in H. cbn [fst] in H. rewrite EQ in H.
  destruct (m k) as [v|] eqn:E.
  - reply. exists v. auto.
  - inversion H; subst. split; auto. exists []. split; auto. split; auto. intros (v & V). congruence.
Qed.

Lemma correct_compare_set dead c k e d : Correct c (CompareSet k e d) (compare_set dead c k e d).
Proof.
  intros s o s' o' st m ND EQ H. unfold compare_set, with_st in H. cbn [fst] in H. rewrite EQ in H.
  assert (W : forall t old s' o' st, (forall k', next m (CompareSet k e d) k' = assign m k (Some d) k') ->
    (upd (set_store (fun x => put x k d)) ;; notify dead k t old d ;; send dead c (MBytes d)) (s, o) = ((s', o'), st) ->
    NoDup (gkeys (store s')) /\ exists new, o' = new ++ o /\
    match st with
    | Done => (forall k', find (store s') k' = next m (CompareSet k e d) k') /\ replies m (CompareSet k e d) (direct c (CompareSet k e d) (rev new))
    | Refused => (forall k, find (store s') k = m k) /\ unanswerable m (CompareSet k e d)
    | SendFailed => partly m (CompareSet k e d) (find (store s'))
    end).
  { clear H s' o' st. intros t old s' o' st NX H. apply seq_run in H. destruct H as [(s1 & o1 & E & H)|(N & E)];
      [|apply upd_run in E; destruct E as (_ & _ & ->); congruence].
    apply upd_run in E. destruct E as (-> & -> & _).
    assert (ST : forall k', find (store (set_store (fun x => put x k d) s)) k' = next m (CompareSet k e d) k').
    { intros k'. rewrite NX. now apply assign_ok. }
    apply seq_run in H. destruct H as [(s2 & o2 & E & H)|(N & E)].
    - apply noise_run in E; [|apply noise_notify]. destruct E as (n1 & -> & S1 & NN & _).
      apply send_run in H. destruct H as (-> & [(-> & ->)|(-> & ->)]); rewrite S1; (split; [cbn; now apply NoDup_put|]).
      + exists ((c, MBytes d) :: n1). split; auto. split; auto. cbn [rev]. rewrite direct_app, direct_noise by auto.
        rewrite direct_one by reflexivity. cbn [app replies]. rewrite NX. unfold assign. now rewrite Nat.eqb_refl.
      + exists n1. split; auto. right. left. auto.
    - apply noise_run in E; [|apply noise_notify]. destruct E as (n1 & -> & S1 & NN & R).
      rewrite S1. split; [cbn; now apply NoDup_put|]. exists n1. split; auto. destruct st; [congruence|congruence|].
      right. left. auto. }
  assert (U : forall x s' o' st, (forall k', next m (CompareSet k e d) k' = m k') ->
     x = match m k with Some x => x | None => e end ->
     send dead c (MBytes x) (s, o) = ((s', o'), st) ->
    NoDup (gkeys (store s')) /\ exists new, o' = new ++ o /\
    match st with
    | Done => (forall k', find (store s') k' = next m (CompareSet k e d) k') /\ replies m (CompareSet k e d) (direct c (CompareSet k e d) (rev new))
    | Refused => (forall k, find (store s') k = m k) /\ unanswerable m (CompareSet k e d)
    | SendFailed => partly m (CompareSet k e d) (find (store s'))
    end).
  { clear H s' o' st. intros x s' o' st NX XE H. apply send_run in H. destruct H as (-> & [(-> & ->)|(-> & ->)]); (split; [auto|]).
    - exists [(c, MBytes x)]. split; auto. split; [intros k'; rewrite NX; auto|]. cbn [rev app]. rewrite direct_one by reflexivity.
      cbn [replies]. rewrite NX. now rewrite XE.
    - exists []. split; auto. left. auto. }
  destruct (m k) as [x|] eqn:MK.
  - destruct (text_eqb x e) eqn:TE.
    + eapply W; eauto. intros k'. cbn [next]. now rewrite MK, TE.
    + eapply U; eauto. intros k'. cbn [next]. now rewrite MK, TE.
  - destruct e as [|a e].
    + eapply W; eauto. intros k'. cbn [next]. now rewrite MK.
    + eapply U; eauto. intros k'. cbn [next]. now rewrite MK.
Qed.

Lemma correct_add dead c k z : Correct c (Add k z) (add dead c k z).
Proof.
  intros s o s' o' st m ND EQ H. unfold add, with_st in H. cbn [fst] in H. rewrite EQ in H.
  assert (W : forall n old s' o' st, total m k z = Some n -> Noise old ->
    (upd (set_store (fun x => put x k (to_string n))) ;; send dead c (MValue n) ;; wakeup dead k ;; old) (s, o) = ((s', o'), st) ->
    NoDup (gkeys (store s')) /\ exists new, o' = new ++ o /\
    match st with
    | Done => (forall k', find (store s') k' = next m (Add k z) k') /\ replies m (Add k z) (direct c (Add k z) (rev new))
    | Refused => (forall k, find (store s') k = m k) /\ unanswerable m (Add k z)
    | SendFailed => partly m (Add k z) (find (store s'))
    end).
  { clear H s' o' st. intros n old s' o' st T NO H. apply seq_run in H. destruct H as [(s1 & o1 & E & H)|(N & E)];
      [|apply upd_run in E; destruct E as (_ & _ & ->); congruence].
    apply upd_run in E. destruct E as (-> & -> & _).
    assert (ST : forall k', find (store (set_store (fun x => put x k (to_string n)) s)) k' = next m (Add k z) k').
    { intros k'. cbn [next]. rewrite T. now apply assign_ok. }
    apply seq_run in H. destruct H as [(s2 & o2 & E & H)|(N & E)].
    - apply send_run in E. destruct E as (-> & [(_ & ->)|(X & _)]); [|discriminate].
      apply noise_run in H; [|apply noise_seq; auto using noise_wakeup]. destruct H as (new & -> & S1 & NN & R).
      rewrite S1. split; [cbn; now apply NoDup_put|]. exists (new ++ [(c, MValue n)]). split; [now rewrite <- app_assoc|].
      destruct st; [|congruence|right; left; auto]. split; auto. rewrite rev_app_distr, direct_app, (direct_noise c (Add k z) new) by auto.
      cbn [rev app]. rewrite direct_one by reflexivity. cbn [app replies]. eauto.
    - apply send_run in E. destruct E as (-> & [(-> & _)|(-> & ->)]); [congruence|].
      split; [cbn; now apply NoDup_put|]. exists []. split; auto. right. left. auto. }
  destruct (m k) as [x|] eqn:MK.
  - destruct (stoll x) as [y|] eqn:SY.
    + eapply W; eauto using noise_notify. unfold total. now rewrite MK, SY.
    + inversion H; subst. split; [assumption|]. exists []. split; [reflexivity|]. split; [assumption|]. cbn [unanswerable]. unfold total. now rewrite MK, SY.
  - eapply W; eauto using noise_notify. unfold total. now rewrite MK.
Qed.

Lemma correct_delete dead c k : Correct c (DeleteKey k) (delete dead c k).
Proof.
  intros s o s' o' st m ND EQ H. unfold delete, with_st in H. cbn [fst] in H. rewrite EQ in H.
  destruct (m k) as [x|] eqn:MK.
  - apply seq_run in H. destruct H as [(s1 & o1 & E & H)|(N & E)].
    + apply noise_run in E; [|apply noise_notify]. destruct E as (n1 & -> & S1 & NN & _).
      apply seq_run in H. destruct H as [(s2 & o2 & E & H)|(N & E)];
        [|apply upd_run in E; destruct E as (_ & _ & ->); congruence].
      apply upd_run in E. destruct E as (-> & -> & _).
      assert (ST : forall k', find (store (set_store (fun d => erase d k) s1)) k' = next m (DeleteKey k) k').
      { intros k'. cbn [next store set_store]. rewrite S1, find_erase. unfold assign. now rewrite EQ. }
      assert (ND1 : NoDup (gkeys (store (set_store (fun d => erase d k) s1)))).
      { cbn. rewrite S1. now apply NoDup_erase. }
      apply send_run in H. destruct H as (-> & [(-> & ->)|(-> & ->)]); split; auto.
      * exists ((c, MValue 1) :: n1). split; auto. split; auto. cbn [rev]. rewrite direct_app, direct_noise by auto.
        rewrite direct_one by reflexivity. left. split; [eexists; eauto|reflexivity].
      * exists n1. split; auto. right. left. auto.
    + apply noise_run in E; [|apply noise_notify]. destruct E as (n1 & -> & S1 & NN & R). rewrite S1.
      split; auto. exists n1. split; auto. destruct st; [congruence|congruence|]. left. auto.
  - apply send_run in H. destruct H as (-> & [(-> & ->)|(-> & ->)]); (split; [auto|]).
    + exists [(c, MValue 0)]. split; auto. split.
      * intros k'. cbn [next]. unfold assign. destruct (Nat.eqb_spec k k') as [<-|]; [now rewrite EQ|auto].
      * cbn [rev app]. rewrite direct_one by reflexivity. right. split; auto. intros (v & V). congruence.
    + exists []. split; auto. left. auto.
Qed.

Lemma check_keys_ok s m ks : (forall k, find (store s) k = m k) ->
  check_keys s ks = true <-> forall k, In k ks -> present m k.
Proof.
  intros EQ. unfold check_keys. rewrite forallb_forall. split; intros H k I; specialize (H k I).
  - rewrite EQ in H. unfold present. destruct (m k); [eauto|discriminate].
  - rewrite EQ. destruct H as (v & ->). reflexivity.
Qed.

Lemma enlist_store c ks : forall n s, store (fst (enlist c ks n s)) = store s.
Proof.
  induction ks as [|k ks IH]; intros n s; cbn [enlist]; auto. destruct (find (store s) k); auto.
  rewrite IH. reflexivity.
Qed.

Lemma correct_wait dead c ks : Correct c (Wait ks) (wait dead c ks).
Proof.
  intros s o s' o' st m ND EQ H. unfold wait, with_st in H. cbn [fst] in H.
  assert (CK := check_keys_ok s m ks EQ). destruct (check_keys s ks).
  - reply. left. split; auto. now apply CK.
  - apply upd_run in H. destruct H as (-> & -> & ->).
    assert (ES := enlist_store c ks 0 s). destruct (enlist c ks 0 s) as [s1 n]. cbn [fst] in ES.
    cbn [store set_awaited]. rewrite ES. split; auto. exists []. split; auto. split; auto.
    right. split; auto. intros A. apply CK in A. discriminate.
Qed.

Lemma correct_watch dead c k : Correct c (WatchKey k) (watch dead c k).
Proof.
  intros s o s' o' st m ND EQ H. unfold watch, with_st in H. cbn [fst] in H.
  apply seq_run in H. destruct H as [(s1 & o1 & E & H)|(N & E)];
      [|apply upd_run in E; destruct E as (_ & _ & ->); congruence].
  apply upd_run in E. destruct E as (-> & -> & _).
  refine (correct_reply dead c (WatchKey k) MRegistered _ _ _ _ _ _ _ m _ _ _ H); auto; reflexivity.
Qed.

Lemma correct_multi_get dead c ks : forall s o s' o' st m,
  NoDup (gkeys (store s)) -> (forall k, find (store s) k = m k) ->
  multi_get dead c ks (s, o) = ((s', o'), st) ->
  s' = s /\ exists new, o' = new ++ o /\
  match st with
  | Done => replies m (MultiGet ks) (direct c (MultiGet ks) (rev new))
  | Refused => unanswerable m (MultiGet ks)
  | SendFailed => True
  end.
Proof.
  induction ks as [|k ks IH]; intros s o s' o' st m ND EQ H; cbn [multi_get] in H.
  - inversion H; subst. split; auto. exists []. split; auto. exists []. split; constructor.
  - apply seq_run in H. destruct H as [(s1 & o1 & E & H)|(N & E)].
    + unfold get, with_st in E. cbn [fst] in E. rewrite EQ in E. destruct (m k) as [v|] eqn:MK; [|discriminate E].
      apply send_run in E. destruct E as (-> & [(_ & ->)|(X & _)]); [|discriminate].
      apply IH with (m := m) in H; auto. destruct H as (-> & new & -> & H). split; auto.
      exists (new ++ [(c, MBytes v)]). split; [now rewrite <- app_assoc|]. destruct st; auto.
      * destruct H as (vs & F & D). exists (v :: vs). split; [constructor; auto|].
        rewrite rev_app_distr, direct_app. cbn [rev app]. rewrite direct_one by reflexivity.
        cbn [map app]. f_equal. exact D.
      * destruct H as (k' & I & P). exists k'. split; simpl; auto.
    + unfold get, with_st in E. cbn [fst] in E. rewrite EQ in E. destruct (m k) as [v|] eqn:MK.
      * apply send_run in E. destruct E as (-> & [(-> & _)|(-> & ->)]); [congruence|]. split; auto. exists []. auto.
      * inversion E; subst. split; auto. exists []. split; auto. exists k. split; simpl; auto. intros (v & V). congruence.
Qed.

Lemma assign_all_ext kvs : forall m m', (forall k, m k = m' k) -> forall k, assign_all m kvs k = assign_all m' kvs k.
Proof.
  induction kvs as [|[k v] kvs IH]; intros m m' E; cbn [assign_all]; auto. apply IH. intros k'. unfold assign. now rewrite E.
Qed.

Lemma correct_multi_set dead c kvs : forall s o s' o' st m,
  NoDup (gkeys (store s)) -> (forall k, find (store s) k = m k) ->
  multi_set dead kvs (s, o) = ((s', o'), st) ->
  NoDup (gkeys (store s')) /\ exists new, o' = new ++ o /\ direct c (MultiSet kvs) (rev new) = [] /\
  match st with
  | Done => forall k, find (store s') k = assign_all m kvs k
  | Refused => False
  | SendFailed => exists pre suf, kvs = pre ++ suf /\ forall k, find (store s') k = assign_all m pre k
  end.
Proof.
  induction kvs as [|[k v] kvs IH]; intros s o s' o' st m ND EQ H; cbn [multi_set] in H.
  - inversion H; subst. split; auto. exists []. auto.
  - apply seq_run in H. destruct H as [(s1 & o1 & E & H)|(N & E)].
    + unfold do_set, with_st in E. cbn [fst] in E.
      apply (write_noise dead k v _ _ _ _ _ _ m) in E; auto; [|destruct (find (store s) k); apply noise_notify].
      destruct E as (ND1 & EQ1 & n1 & -> & NN & _).
      apply IH with (m := assign m k (Some v)) in H; auto. destruct H as (ND2 & n2 & -> & D & H).
      split; auto. exists (n2 ++ n1). rewrite app_assoc. split; auto. split.
      * rewrite rev_app_distr, direct_app, (direct_noise c _ n1) by auto. exact D.
      * destruct st; auto. destruct H as (pre & suf & -> & H). exists ((k, v) :: pre), suf. split; auto.
    + unfold do_set, with_st in E. cbn [fst] in E.
      apply (write_noise dead k v _ _ _ _ _ _ m) in E; auto; [|destruct (find (store s) k); apply noise_notify].
      destruct E as (ND1 & EQ1 & n1 & -> & NN & R). split; auto. exists n1. split; auto. split; [now apply direct_noise|].
      destruct st; [congruence|congruence|]. exists [(k, v)], kvs. split; auto.
Qed.

Lemma correct_handle dead c r : Correct c r (handle dead c r).
Proof.
  destruct r; cbn [handle].
  - apply correct_do_set.
  - apply correct_compare_set.
  - apply correct_get.
  - apply correct_add.
  - intros s o s' o' st m ND EQ H. unfold with_st in H. cbn [fst] in H. reply.
    exists (check_keys s ks). split; auto. now apply check_keys_ok.
  - apply correct_wait.
  - intros s o s' o' st m ND EQ H. unfold with_st in H. cbn [fst] in H. reply.
    exists (gkeys (store s)). split; auto. split; [|unfold gkeys; now rewrite map_length].
    intros k. split.
    + intros I. apply (gget_Some_key _ Nat.eqb_spec) in I. destruct I as (v & V). exists v. rewrite <- EQ. exact V.
    + intros (v & V). rewrite <- EQ in V. apply (gget_In _ Nat.eqb_spec) in V. apply (in_map fst) in V. exact V.
  - apply correct_watch.
  - apply correct_delete.
  - apply correct_append.
  - intros s o s' o' st m ND EQ H. apply correct_multi_get with (m := m) in H; auto. destruct H as (-> & new & -> & H).
    split; auto. exists new. split; auto. destruct st; auto. left. auto.
  - intros s o s' o' st m ND EQ H. apply (correct_multi_set dead c) with (m := m) in H; auto.
    destruct H as (ND' & new & -> & D & H). split; auto. exists new. split; auto. destruct st; [auto|destruct H|].
    right. right. destruct H as (pre & suf & -> & H). eauto.
Qed.

Lemma explain s h : reach s h -> NoDup (gkeys (store s)) /\ exists m, explained h m /\ forall k, find (store s) k = m k.
Proof.
  induction 1 as [|s h e s' x R (ND & m & EX & EQ) P ST].
  - split; [constructor|]. exists (fun _ => None). split; [constructor|reflexivity].
  - destruct e as [c|c|c r dead]; cbn [step] in ST.
    + inversion ST; subst. split; auto. exists m. split; [now constructor|auto].
    + inversion ST; subst. split; auto. exists m. split; [now constructor|auto].
    + destruct (handle dead c r (s, [])) as [[s1 o1] st] eqn:E.
      destruct (correct_handle dead c r _ _ _ _ _ m ND EQ E) as (ND1 & new & O & H). rewrite app_nil_r in O. subst new.
      destruct st; inversion ST; subst; (split; [exact ND1|]).
      * destruct H as [H1 H2]. exists (next m r). split; [now constructor|auto].
      * destruct H as [H1 H2]. exists m. split; [now constructor|auto].
      * exists (find (store s1)). split; [econstructor; eauto|reflexivity].
Qed.

(** ** The property *)

(** Every history is explained by a plain map processed one request at a time. *)
Theorem C36_sequential_map s h : reach s h -> exists m, explained h m.
Proof. intros R. destruct (explain s h R) as (_ & m & E & _). eauto. Qed.

(** A counter's text reads back as its number, so successive additions sum up:
    [adds k h] are the increments added to [k] so far (newest first). *)
Definition touches (k : key) (r : request) : bool :=
  match r with
  | Set_ k' _ | CompareSet k' _ _ | DeleteKey k' | Append k' _ => k' =? k
  | MultiSet kvs => existsb (fun kv => fst kv =? k) kvs
  | _ => false
  end.
Fixpoint adds (k : key) (h : list entry) : list Z :=
  match h with
  | [] => []
  | e :: h => match ev e, res e with
              | Request _ (Add k' z) _, Done | Request _ (Add k' z) _, SendFailed => if k' =? k then z :: adds k h else adds k h
              | _, _ => adds k h
              end
  end.
Definition sum := fold_right Z.add 0%Z.

(** Only additions touch [k] in this history, and its running totals stay in the range of int64. *)
Fixpoint counter (k : key) (h : list entry) : Prop :=
  match h with
  | [] => True
  | e :: h' => (forall c r dead, ev e = Request c r dead -> touches k r = false) /\
               (- 2 ^ 63 <= sum (adds k h) < 2 ^ 63)%Z /\ counter k h'
  end.

Lemma assign_all_untouched k kvs : existsb (fun kv => fst kv =? k) kvs = false -> forall m, assign_all m kvs k = m k.
Proof.
  induction kvs as [|[k' v] kvs IH]; intros H m; auto. cbn [existsb fst] in H. apply orb_false_iff in H. destruct H as [H1 H2].
  cbn [assign_all]. rewrite IH by auto. unfold assign. now rewrite H1.
Qed.

Lemma next_untouched k r m : touches k r = false -> (forall z, r <> Add k z) -> next m r k = m k.
Proof.
  intros T NA. destruct r; cbn [touches next] in *; unfold assign; rewrite ?T; auto.
  - destruct (m k0); [destruct (text_eqb v expected)|destruct expected]; rewrite ?T; auto.
  - destruct (total m k0 z); auto. destruct (Nat.eqb_spec k0 k) as [->|]; auto. elim (NA z). reflexivity.
  - now apply assign_all_untouched.
Qed.

Definition holds (m : contents) (k : key) (zs : list Z) : Prop :=
  match zs with [] => m k = None | _ => m k = Some (to_string (sum zs)) end.


(** A SendFailed addition has always taken effect: the number is stored before anything is sent. *)
Lemma add_failed dead c k z s o s' o' m : (forall k, find (store s) k = m k) ->
  add dead c k z (s, o) = ((s', o'), SendFailed) -> forall k', find (store s') k' = next m (Add k z) k'.
Proof.
  intros EQ H. unfold add, with_st in H. cbn [fst] in H. rewrite EQ in H.
  assert (W : forall n old, total m k z = Some n -> Noise old ->
    (upd (set_store (fun x => put x k (to_string n))) ;; send dead c (MValue n) ;; wakeup dead k ;; old) (s, o) = ((s', o'), SendFailed) ->
    forall k', find (store s') k' = next m (Add k z) k').
  { intros n old T NO E k'. apply seq_run in E. destruct E as [(s1 & o1 & E & E2)|(N & E)]; [|discriminate E].
    apply upd_run in E. destruct E as (-> & -> & _).
    assert (ST : store s' = put (store s) k (to_string n)).
    { apply seq_run in E2. destruct E2 as [(s2 & o2 & E & E2)|(_ & E)].
      - apply send_run in E. destruct E as (-> & _).
        apply noise_run in E2; [|apply noise_seq; auto using noise_wakeup]. destruct E2 as (? & _ & E2 & _). exact E2.
      - apply send_run in E. destruct E as (-> & _). reflexivity. }
    rewrite ST. cbn [next]. rewrite T. now apply assign_ok. }
  destruct (m k) as [x|] eqn:MK.
  - destruct (stoll x) as [y|] eqn:SY; [|discriminate H].
    eapply W; eauto using noise_notify. unfold total. now rewrite MK, SY.
  - eapply W; eauto using noise_notify. unfold total. now rewrite MK.
Qed.

Lemma counter_step m k z zs : holds m k zs -> (INT64_MIN <= sum zs <= INT64_MAX)%Z -> (INT64_MIN <= sum (z :: zs) <= INT64_MAX)%Z ->
  total m k z = Some (sum (z :: zs)).
Proof.
  intros H R1 R2. unfold total, holds in *. destruct zs as [|y zs].
  - rewrite H. cbn. now rewrite Z.add_0_r.
  - rewrite H, stoll_to_string by auto. f_equal. change (sum (z :: y :: zs)) with (z + sum (y :: zs))%Z in *. now apply wrap64_id.
Qed.

Lemma holds_ext m m' k zs : m k = m' k -> holds m k zs -> holds m' k zs.
Proof. unfold holds. intros ->. auto. Qed.

Lemma counter_holds s h k : reach s h -> counter k h -> holds (find (store s)) k (adds k h).
Proof.
  induction 1 as [|s h e s' x R IH P ST]; intros C; [reflexivity|].
  destruct C as (T & RG' & C). assert (RG : (INT64_MIN <= sum (adds k (x :: h)) <= INT64_MAX)%Z) by (unfold INT64_MIN, INT64_MAX; lia).
  clear RG'. specialize (IH C). destruct (explain s h R) as (ND & _).
  destruct e as [c|c|c r dead]; cbn [step] in ST.
  - inversion ST; subst. exact IH.
  - inversion ST; subst. exact IH.
  - destruct (handle dead c r (s, [])) as [[s1 o1] st] eqn:E.
    destruct (correct_handle dead c r _ _ _ _ _ (find (store s)) ND (fun _ => eq_refl) E) as (ND1 & new & O & H).
    assert (TR : touches k r = false) by (destruct st; inversion ST; subst; eapply T; reflexivity).
    assert (RG0 : (INT64_MIN <= sum (adds k h) <= INT64_MAX)%Z).
    { destruct h; [cbn; unfold INT64_MIN, INT64_MAX; lia|]. destruct C as (_ & C & _). unfold INT64_MIN, INT64_MAX. lia. }
    assert (D : (exists z, r = Add k z) \/ (forall z, r <> Add k z)).
    { destruct r; try (right; intros; discriminate). destruct (Nat.eq_dec k0 k) as [->|]; [left; eauto|right; congruence]. }
    destruct D as [(z & ->)|NA].
    + assert (HA : st = Done \/ st = SendFailed -> holds (find (store s1)) k (z :: adds k h)).
      { intros SD. assert (F : forall k', find (store s1) k' = next (find (store s)) (Add k z) k').
        { destruct SD as [->| ->]; [apply H|]. eapply add_failed; [reflexivity|exact E]. }
        assert (RG1 : (INT64_MIN <= sum (z :: adds k h) <= INT64_MAX)%Z).
        { destruct SD as [->| ->]; inversion ST; subst; cbn [adds ev res] in RG; now rewrite Nat.eqb_refl in RG. }
        unfold holds. rewrite F. cbn [next]. rewrite (counter_step _ _ _ _ IH RG0 RG1). unfold assign. now rewrite Nat.eqb_refl. }
      destruct st; inversion ST; subst; cbn [adds ev res close store]; rewrite ?Nat.eqb_refl; auto.
      destruct H as [H _]. eapply holds_ext; [|exact IH]. now rewrite H.
    + assert (AD : adds k (x :: h) = adds k h).
      { destruct st; inversion ST; subst; cbn [adds ev res]; destruct r; auto;
          destruct (Nat.eqb_spec k0 k) as [->|]; auto; elim (NA z); reflexivity. }
      rewrite AD.
      assert (F : find (store s1) k = find (store s) k).
      { destruct st.
        - destruct H as [-> _]. now apply next_untouched.
        - destruct H as [-> _]. reflexivity.
        - destruct H as [H|[H|(pre & suf & -> & H)]]; rewrite H; auto.
          + now apply next_untouched.
          + apply assign_all_untouched. cbn [touches] in TR. rewrite existsb_app in TR. now apply orb_false_iff in TR. }
      destruct st; inversion ST; subst; cbn [close store]; (eapply holds_ext; [symmetry; exact F|exact IH]).
Qed.

(** Concurrent additions lose no increment: each completed [add] is answered
    with the sum of all increments of that key up to and including its own. *)
Theorem C36_adds_are_running_totals s h k c z dead out :
  reach s (mkEntry (Request c (Add k z) dead) Done out :: h) ->
  counter k (mkEntry (Request c (Add k z) dead) Done out :: h) ->
  direct c (Add k z) out = [MValue (sum (z :: adds k h))].
Proof.
  intros R C. inversion R as [|s0 h0 e s' x R0 P ST]; subst. destruct C as (_ & RG & C).
  assert (HO := counter_holds s0 h k R0 C). destruct (explain s0 h R0) as (ND & _).
  destruct e as [c0|c0|c0 r0 dead0]; cbn [step] in ST; try (inversion ST; fail).
  destruct (handle dead0 c0 r0 (s0, [])) as [[s1 o1] st] eqn:E.
  destruct (correct_handle dead0 c0 r0 _ _ _ _ _ (find (store s0)) ND (fun _ => eq_refl) E) as (ND1 & new & O & H).
  rewrite app_nil_r in O. subst new.
  destruct st; inversion ST; subst. destruct H as [_ (t & T & D)]. rewrite D.
  assert (RG0 : (INT64_MIN <= sum (adds k h) <= INT64_MAX)%Z).
  { destruct h; [cbn; unfold INT64_MIN, INT64_MAX; lia|]. destruct C as (_ & C & _). unfold INT64_MIN, INT64_MAX. lia. }
  assert (RG2 : (INT64_MIN <= sum (z :: adds k h) <= INT64_MAX)%Z).
  { cbn [adds ev res] in RG. rewrite ?Nat.eqb_refl in RG. unfold INT64_MIN, INT64_MAX. lia. }
  rewrite (counter_step _ _ _ _ HO RG0 RG2) in T. now inversion T.
Qed.

(** With positive increments the answers to different additions are different. *)
Theorem C36_add_answers_distinct s k c1 z1 d1 o1 h1 c2 z2 d2 o2 h2 :
  let e1 := mkEntry (Request c1 (Add k z1) d1) Done o1 in
  let e2 := mkEntry (Request c2 (Add k z2) d2) Done o2 in
  reach s (e2 :: h2 ++ e1 :: h1) -> counter k (e2 :: h2 ++ e1 :: h1) ->
  (forall z, In z (adds k (e2 :: h2 ++ e1 :: h1)) -> (0 < z)%Z) ->
  direct c1 (Add k z1) o1 <> direct c2 (Add k z2) o2.
Proof.
  intros e1 e2 R C P. rewrite (C36_adds_are_running_totals _ _ _ _ _ _ _ R C).
  assert (R1 : exists s1, reach s1 (e1 :: h1)).
  { inversion R; subst. clear - H1. remember (h2 ++ e1 :: h1) as h. revert h2 Heqh. induction H1 as [|s h e s' x R IH P ST]; intros h2 E.
    - destruct h2; discriminate.
    - destruct h2 as [|y h2]; cbn [app] in E; inversion E; subst; [econstructor; econstructor; eauto|eauto]. }
  destruct R1 as (s1 & R1).
  assert (C1 : counter k (e1 :: h1)).
  { destruct C as (_ & _ & C). clear - C. induction h2 as [|y h2 IH]; [exact C|]. destruct C as (_ & _ & C). auto. }
  rewrite (C36_adds_are_running_totals _ _ _ _ _ _ _ R1 C1).
  assert (AP : exists zs, adds k (h2 ++ e1 :: h1) = zs ++ adds k (e1 :: h1)).
  { clear. induction h2 as [|y h2 (zs & IH)]; [exists []; reflexivity|]. cbn [adds app]. rewrite IH.
    destruct (ev y) as [|c|c r d]; try (exists zs; reflexivity).
    destruct r; try (exists zs; reflexivity). destruct (res y); try (exists zs; reflexivity);
      (destruct (k0 =? k); [exists (z :: zs); reflexivity|exists zs; reflexivity]). }
  destruct AP as (zs & AP).
  assert (A2 : adds k (e2 :: h2 ++ e1 :: h1) = z2 :: zs ++ adds k (e1 :: h1)).
  { change (adds k (e2 :: h2 ++ e1 :: h1)) with (if k =? k then z2 :: adds k (h2 ++ e1 :: h1) else adds k (h2 ++ e1 :: h1)).
    now rewrite Nat.eqb_refl, AP. }
  assert (A1 : adds k (e1 :: h1) = z1 :: adds k h1).
  { change (adds k (e1 :: h1)) with (if k =? k then z1 :: adds k h1 else adds k h1). now rewrite Nat.eqb_refl. }
  rewrite AP, A1. rewrite A2 in P. intros Q. inversion Q as [Q'].
  assert (PZ : (0 < z2)%Z) by (apply P; simpl; auto).
  assert (PS : forall l, (forall z, In z l -> (0 < z)%Z) -> (0 <= sum l)%Z).
  { clear. induction l as [|z l IH]; intros H; cbn; [lia|]. assert (0 < z)%Z by (apply H; simpl; auto).
    assert (0 <= sum l)%Z by (apply IH; intros; apply H; simpl; auto). unfold sum in *. lia. }
  assert (SA : forall a b, sum (a ++ b) = (sum a + sum b)%Z).
  { clear. induction a as [|z a IH]; intros b; cbn; auto. unfold sum in *. rewrite IH. lia. }
  change (z2 + sum (zs ++ z1 :: adds k h1))%Z with (z2 + sum (zs ++ z1 :: adds k h1))%Z in Q'.
  assert (0 <= sum zs)%Z by (apply PS; intros z I; apply P; right; apply in_or_app; auto).
  cbn [sum fold_right] in Q'. fold (sum (zs ++ z1 :: adds k h1)) in Q'. fold (sum (adds k h1)) in Q'.
  rewrite SA in Q'. cbn [sum fold_right] in Q'. fold (sum (adds k h1)) in Q'. lia.
Qed.

(** ** Non-vacuity *)
Module Demo.
  Fixpoint run (s : st) (h : list entry) (es : list event) : st * list entry :=
    match es with [] => (s, h) | e :: es => let (s', x) := step s e in run s' (x :: h) es end.
  Fixpoint possible_all (s : st) (es : list event) : Prop :=
    match es with [] => True | e :: es => possible s e /\ possible_all (fst (step s e)) es end.
  Lemma run_reach es : forall s h, reach s h -> possible_all s es -> reach (fst (run s h es)) (snd (run s h es)).
  Proof.
    induction es as [|e es IH]; intros s h R P; auto. destruct P as [P PA]. cbn [run].
    destruct (step s e) as [s' x] eqn:E. cbn [fst] in PA. apply IH; auto. econstructor; eauto.
  Qed.
  Definition es : list event :=
    [ Connect 4; Connect 5;
      Request 4 (Add 1 5) []; Request 5 (Add 1 7) []; Request 4 (Set_ 2 (lit "v")) [];
      Request 5 (CompareSet 2 (lit "v") (lit "w")) []; Request 4 (Get 2) []; Request 5 GetNumKeys [];
      Request 4 (Get 9) []; Request 5 (Check [1; 2]) [] ].
  Example demo : reach (fst (run init [] es)) (snd (run init [] es)).
  Proof. apply run_reach; [constructor|]. vm_compute. intuition discriminate. Qed.
  Example demo_out : map (fun e => (res e, sent e)) (rev (snd (run init [] es))) =
    [ (Done, []); (Done, []); (Done, [(4, MValue 5)]); (Done, [(5, MValue 12)]); (Done, []);
      (Done, [(5, MBytes (lit "w"))]); (Done, [(4, MBytes (lit "w"))]); (Done, [(5, MValue 2)]);
      (Refused, []); (Done, [(5, MCheck true)]) ].
  Proof. vm_compute. reflexivity. Qed.
  Example demo_counter : counter 1 (snd (run init [] es)).
  Proof.
    vm_compute. repeat split; intros; try discriminate;
      match goal with H : _ = Request _ _ _ |- _ => inversion H; subst; reflexivity end.
  Qed.
End Demo.

Print Assumptions C36_sequential_map.
Print Assumptions C36_adds_are_running_totals.
Print Assumptions C36_add_answers_distinct.
