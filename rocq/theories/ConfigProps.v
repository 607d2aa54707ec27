(** C20 (pool configuration) and C16 (allocation strategies).

    Reading guide.  A history is a list of [Add idx label internal externals],
    [Remove idx] and [Reset idx externals].  [run os] is the configuration the
    code has after it.  [after os : nat -> option pconf] says, without any
    table, which pools exist then and what was declared for them; [owns w i a]
    says that [a] is one of the external addresses of pool [i]; [processes os]
    lists the existing pools in the order they were added.

    A history is [legal] if a pool is added under a fresh index with at least
    one external address, no two pools have an external address in common,
    only existing pools are removed or moved, and
    - a removed pool has a single external address,
    - a moved pool's internal address is not one of its external addresses.
    (C16 needs only [addressed]: every pool is added with an external address.)
    The last two are what the code needs beyond what a user would expect: the
    two [_refuted] theorems show that without them the claim is false. *)
From Coq Require Import List Bool Arith ZArith String Lia.
From Verif Require Import Dict ConfigModel ConfigProofs.
Import ListNotations.
Open Scope string_scope.

(** ** C20 *)

Theorem C20_internal_address_partial : forall os, legal nobody os -> forall a v,
  internal_of (run os) a = Some v <->
  exists i p, after os i = Some p /\ In a (c_external p) /\ v = c_internal p.
Proof. intros os L. destruct (reach os L). auto. Qed.

Theorem C20_process_index_partial : forall os, legal nobody os -> forall a,
  (forall i, get_process_index (run os) a = Ok i <-> owns (after os) i a) /\
  (forall e, get_process_index (run os) a = Err e -> e = ValueError /\ forall i, ~ owns (after os) i a).
Proof.
  intros os L a. destruct (reach os L) as [ND PO NE DI MA]. unfold get_process_index.
  assert (F : forall i, find_owner (pools (run os)) a = Ok i -> owns (after os) i a).
  { intros i H. apply find_owner_spec in H. destruct H as [p [A B]]. exists p. split; auto.
    rewrite <- PO. apply (gIn_get _ Nat.eqb_spec); auto. }
  assert (G : forall e, find_owner (pools (run os)) a = Err e -> e = ValueError /\ forall i, ~ owns (after os) i a).
  { intros e H. apply find_owner_err in H. destruct H as [A B]. split; auto.
    intros i [p [Hp Ip]]. apply (B i p); auto. apply (gget_In _ Nat.eqb_spec). now rewrite PO. }
  split; auto. intros i. split; [apply F|].
  intros O. destruct (find_owner (pools (run os)) a) as [j|e] eqn:E.
  - f_equal. apply (DI j i a); auto.
  - exfalso. destruct (G e eq_refl) as [_ X]. apply (X i O).
Qed.

(** What the lookups by process index answer, and which updates raise: removing or moving a
    pool that does not exist raises KeyError and changes nothing; the others do not raise. *)
Theorem C20_lookups_and_errors_partial : forall os, legal nobody os ->
  (NoDup (get_process_indexes (run os)) /\ forall i, In i (get_process_indexes (run os)) <-> after os i <> None) /\
  (forall i, match after os i with
             | Some p => exists a r, c_external p = a :: r /\ get_external_address (run os) i = Ok a
             | None => get_external_address (run os) i = Err KeyError
             end) /\
  (forall i, match after os i with
             | Some _ => snd (remove_pool_config (run os) i) = None
             | None => remove_pool_config (run os) i = (run os, Some KeyError)
             end) /\
  (forall i a r, match after os i with
             | Some _ => snd (reset_pool_external_address (run os) i a r) = None
             | None => reset_pool_external_address (run os) i a r = (run os, Some KeyError)
             end).
Proof.
  intros os L. destruct (reach os L) as [ND PO NE DI MA].
  assert (G : forall i, match after os i with
             | Some p => exists a r, c_external p = a :: r /\ get_external_address (run os) i = Ok a
             | None => get_external_address (run os) i = Err KeyError
             end).
  { intros i. unfold get_external_address, pget. rewrite PO. destruct (after os i) as [p|] eqn:E; [|reflexivity].
    specialize (NE i p E). cbn [bind]. destruct (c_external p) as [|a r]; [congruence|]. now exists a, r. }
  split; [|split; [exact G|split]].
  - split; [exact ND|]. intros i. rewrite <- PO. unfold get_process_indexes. split.
    + intros H. apply in_map_iff in H. destruct H as ([j p] & <- & H). cbn.
      rewrite (gIn_get _ Nat.eqb_spec _ _ _ ND H). discriminate.
    + destruct (gget Nat.eqb (pools (run os)) i) as [p|] eqn:E; [|congruence]. intros _.
      apply (gget_In _ Nat.eqb_spec) in E. change i with (fst (i, p)). now apply in_map.
  - intros i. specialize (G i). unfold remove_pool_config. destruct (after os i) as [p|] eqn:E.
    + destruct G as (a & r & X & ->).
      assert (M : internal_of (run os) a = Some (c_internal p)) by (apply MA; exists i, p; rewrite X; repeat split; auto; now left).
      unfold internal_of in M. now rewrite M.
    + now rewrite G.
  - intros i a r. unfold reset_pool_external_address, pget. rewrite PO. destruct (after os i) as [p|]; [|reflexivity].
    now destruct (reset_loop _ _ _ _).
Qed.

(** The addresses listed for a label are the first addresses of the pools added
    with that label, each once; with no label, of all pools. *)
Theorem C20_addresses_with_label_partial : forall os, legal nobody os -> forall label,
  exists l, get_external_addresses (run os) label = Ok l /\ NoDup l /\
  forall a, In a l <-> exists i p r, after os i = Some p /\ c_external p = a :: r /\
                       (label = None \/ label = c_label p).
Proof.
  intros os L label. destruct (reach os L) as [ND PO NE DI MA].
  pose proof (legal_addressed os nobody L) as LA.
  exists (listed (pools (run os)) label). split; [|split].
  - now apply listed_ok.
  - apply NoDup_listed; auto.
    + intros i p H. apply (NE i). rewrite <- PO. apply (gIn_get _ Nat.eqb_spec); auto.
    + intros i p j q a Hi Hj Ap Aq.
      apply (DI i j a); [exists p|exists q]; split; auto; rewrite <- PO; apply (gIn_get _ Nat.eqb_spec); auto.
  - now apply listed_In.
Qed.

(** The full claim: the same for histories in which a removed pool may have
    several addresses and an internal address may equal an external one. *)
Definition fair_op (w : world) (o : op) : Prop :=
  match o with
  | Add i l n e => w i = None /\ e <> [] /\ forall a j, In a e -> ~ owns w j a
  | Remove i => w i <> None
  | Reset i a r => w i <> None /\ forall x j, In x (a :: r) -> j <> i -> ~ owns w j x
  end.
Fixpoint fair (w : world) (os : list op) : Prop :=
  match os with [] => True | o :: os' => fair_op w o /\ fair (spec_op w o) os' end.
Definition C20_claim : Prop := forall os, fair nobody os -> forall a,
  internal_of (run os) a <> None -> exists i, owns (after os) i a.

(** After removing a pool with two external addresses, the second one is still
    mapped to the removed pool's internal address (config.py 75-78). *)
Theorem C20_config_refuted : ~ C20_claim.
Proof.
  intros H.
  destruct (H [Add 0 None (Some "unix:0") ["h:1"; "h:2"]; Remove 0]) with (a := "h:2") as [i [p [A B]]].
  - simpl. unfold nobody. repeat split; try discriminate.
    intros a j _ [p [E _]]. discriminate.
  - vm_compute. discriminate.
  - unfold after, spec_op, upd, nobody in A. simpl in A.
    destruct (Nat.eqb i 0); discriminate.
Qed.

(** An internal address that equals the external one (as on Windows) follows the
    first move of the pool but not the second: address b:2 is then reported with
    the internal address of the pool's first location (config.py 104-116). *)
Theorem C20_second_move_refuted :
  let os := [Add 0 None (Some "h:1") ["h:1"]; Reset 0 "h:5" []; Reset 0 "h:6" []] in
  fair nobody os /\
  internal_of (run (firstn 2 os)) "h:5" = Some (Some "h:5") /\
  internal_of (run os) "h:6" = Some (Some "h:1").
Proof.
  split; [|split; reflexivity]. simpl. unfold nobody, upd; simpl.
  repeat split; try discriminate.
  - intros a j _ [p [E _]]. discriminate.
  - intros x j _ Hj [p [E _]]. destruct (Nat.eqb_spec j 0); [contradiction|discriminate].
  - intros x j _ Hj [p [E _]]. destruct (Nat.eqb_spec j 0); [contradiction|discriminate].
Qed.

(** The condition that no two pools share an external address cannot be dropped: when one of two
    pools with the same address is removed, the address of the other is forgotten, and removing
    the other then raises KeyError (config.py 75-78) - after it has been removed. *)
Theorem C20_shared_address_refuted : forall (a : addr) (n : option addr),
  let os := [Add 0 None n [a]; Add 1 None n [a]; Remove 0] in
  internal_of (run os) a = None /\
  get_external_address (run os) 1 = Ok a /\
  snd (remove_pool_config (run os) 1) = Some KeyError /\
  get_process_indexes (run (os ++ [Remove 1])) = [].
Proof.
  intros a n. unfold internal_of, run. simpl. unfold add_pool_conf, remove_pool_config, apply, get_external_address; simpl.
  rewrite !String.eqb_refl. simpl. rewrite !String.eqb_refl. simpl. repeat split.
Qed.

(** ** C16 *)

Fixpoint processes_from (l : list nat) (os : list op) : list nat :=
  match os with
  | [] => l
  | Add i _ _ _ :: os' => processes_from (if existsb (Nat.eqb i) l then l else l ++ [i]) os'
  | Remove i :: os' => processes_from (List.remove Nat.eq_dec i l) os'
  | Reset _ _ _ :: os' => processes_from l os'
  end.
Definition processes := processes_from [].

Lemma keys_gdel : forall (d : list (nat * pconf)) i,
  gkeys (gdel Nat.eqb d i) = List.remove Nat.eq_dec i (gkeys d).
Proof.
  induction d as [|[j p] d IH]; simpl; intros i; auto.
  destruct (Nat.eqb_spec j i); destruct (Nat.eq_dec i j); subst; simpl; try congruence; auto.
Qed.

Lemma remove_notin : forall i l, ~ In i l -> List.remove Nat.eq_dec i l = l.
Proof.
  induction l as [|x l IH]; simpl; intros H; auto. destruct (Nat.eq_dec i x); [subst; tauto|].
  f_equal. apply IH. tauto.
Qed.

Lemma processes_ok : forall os c w, InvP c w -> Forall addressed os ->
  get_process_indexes (fold_left apply os c) = processes_from (get_process_indexes c) os.
Proof.
  unfold get_process_indexes. induction os as [|o os IH]; intros c w I L; [reflexivity|].
  inversion L as [|? ? L1 L2]; subst. simpl fold_left. rewrite (IH _ (spec_op w o)); auto; [|now apply invp_step].
  destruct I as [ND PO NE].
  destruct o as [i l n e|i|i a r]; simpl; f_equal.
  - destruct (existsb (Nat.eqb i) (map fst (pools c))) eqn:E.
    + apply existsb_exists in E. destruct E as [x [E1 E2]]. apply Nat.eqb_eq in E2. subst x.
      destruct (gget_Some_key _ Nat.eqb_spec (pools c) i E1) as [v V].
      eapply (gset_keys_old Nat.eqb). eauto.
    + assert (N : gget Nat.eqb (pools c) i = None).
      { apply (gget_None _ Nat.eqb_spec). intros H.
        assert (X : existsb (Nat.eqb i) (map fst (pools c)) = true).
        { apply existsb_exists. exists i. split; [exact H|apply Nat.eqb_refl]. }
        congruence. }
      rewrite (gset_new Nat.eqb); auto. now rewrite map_app.
  - unfold remove_pool_config, get_external_address, pget, bind.
    destruct (gget Nat.eqb (pools c) i) as [p|] eqn:G.
    + destruct (c_external p) as [|a r] eqn:X.
      { exfalso. rewrite PO in G. eapply NE; eauto. }
      destruct (gget String.eqb (mapping c) a); simpl; apply keys_gdel.
    + simpl. symmetry. apply remove_notin. now apply (gget_None _ Nat.eqb_spec) in G.
  - unfold reset_pool_external_address, pget.
    destruct (gget Nat.eqb (pools c) i) as [p|] eqn:G; [|reflexivity].
    destruct (reset_loop _ _ _ _). simpl. eapply (gset_keys_old Nat.eqb). eauto.
Qed.

(** The main address of the pool with index [i] after the history. *)
Definition main_address (os : list op) (i : nat) (a : addr) : Prop :=
  exists p r, after os i = Some p /\ c_external p = a :: r.

Lemma get_ext_ok : forall os, Forall addressed os -> forall i, In i (get_process_indexes (run os)) ->
  exists a, get_external_address (run os) i = Ok a /\ main_address os i a.
Proof.
  intros os L i H. destruct (reachp os L) as [ND PO NE].
  destruct (gget_Some_key _ Nat.eqb_spec (pools (run os)) i H) as [p Hp].
  unfold get_external_address, pget. rewrite Hp. simpl.
  rewrite PO in Hp. pose proof (NE i p Hp) as N. destruct (c_external p) as [|a r] eqn:E; [congruence|].
  exists a. split; auto. exists p, r. auto.
Qed.

Lemma proc_run : forall os, Forall addressed os -> get_process_indexes (run os) = processes os.
Proof. intros. unfold run, processes. erewrite processes_ok; eauto using invp_empty. Qed.

Lemma mem_processes : forall os, Forall addressed os -> forall i,
  In i (processes os) <-> after os i <> None.
Proof.
  intros os L i. rewrite <- (proc_run os L). destruct (reachp os L) as [ND PO NE].
  unfold get_process_indexes. fold (gkeys (pools (run os))).
  destruct (gget Nat.eqb (pools (run os)) i) eqn:E.
  - rewrite PO in E. rewrite E. split; [discriminate|]. intros _.
    rewrite <- PO in E. apply (gget_In _ Nat.eqb_spec) in E. apply (in_map fst) in E. exact E.
  - pose proof E as E'. apply (gget_None _ Nat.eqb_spec) in E. rewrite PO in E'. rewrite E'. tauto.
Qed.

Lemma py_nth_spec : forall A (l : list A) i,
  (exists a, py_nth l i = Ok a /\
    ((0 <= i < Z.of_nat (List.length l))%Z /\ nth_error l (Z.to_nat i) = Some a \/
     (- Z.of_nat (List.length l) <= i < 0)%Z /\ nth_error l (Z.to_nat (i + Z.of_nat (List.length l))) = Some a)) \/
  (py_nth l i = Err IndexError /\ (i < - Z.of_nat (List.length l) \/ i >= Z.of_nat (List.length l))%Z).
Proof.
  intros A l i. unfold py_nth.
  destruct (Z.ltb_spec i 0); [set (j := (i + Z.of_nat (List.length l))%Z)|set (j := i)];
  destruct (Z.leb_spec 0 j); destruct (Z.ltb_spec j (Z.of_nat (List.length l)));
    cbn [andb]; unfold j in *; try (right; split; [reflexivity|lia]).
  all: left.
  - destruct (nth_error l (Z.to_nat (i + Z.of_nat (List.length l)))) eqn:E.
    + exists a. split; [reflexivity|]. right. split; [lia|auto].
    + apply nth_error_None in E. lia.
  - destruct (nth_error l (Z.to_nat i)) eqn:E.
    + exists a. split; [reflexivity|]. left. split; [lia|auto].
    + apply nth_error_None in E. lia.
Qed.

Theorem C16_address_specified : forall a c al r,
  get_allocated_address (AddressSpecified a) c al r = Ok a.
Proof. reflexivity. Qed.

(** ProcessIndex(i): the address of the i-th process, counted from the end if
    negative; IndexError exactly when there is no such process. *)
Theorem C16_process_index : forall os al r i, Forall addressed os ->
  let n := Z.of_nat (List.length (processes os)) in
  let k := Z.to_nat (if (i <? 0)%Z then i + n else i)%Z in
  ((- n <= i < n)%Z ->
     exists p a, nth_error (processes os) k = Some p /\ main_address os p a /\
       get_allocated_address (ProcessIndex i) (run os) al r = Ok a) /\
  ((i < - n \/ i >= n)%Z -> get_allocated_address (ProcessIndex i) (run os) al r = Err IndexError).
Proof.
  intros os al r i L n k. simpl. pose proof (proc_run os L) as P.
  destruct (py_nth_spec nat (get_process_indexes (run os)) i) as [[p [E C]]|[E C]]; rewrite E.
  - rewrite P in C. fold n in C. split.
    + intros _. simpl.
      assert (I : nth_error (processes os) k = Some p).
      { unfold k. destruct (Z.ltb_spec i 0); destruct C as [[C1 C2]|[C1 C2]]; auto; lia. }
      destruct (get_ext_ok os L p) as [a [A B]].
      { rewrite P. eapply nth_error_In; eauto. }
      exists p, a. auto.
    + intros D. exfalso. destruct C as [[C1 _]|[C1 _]]; lia.
  - rewrite P in C. fold n in C. split; [intros; lia|reflexivity].
Qed.

(** MainPool: the address of the first process. *)
Theorem C16_main_pool : forall os al r, Forall addressed os ->
  match processes os with
  | [] => get_allocated_address MainPool (run os) al r = Err IndexError
  | p :: _ => exists a, main_address os p a /\ get_allocated_address MainPool (run os) al r = Ok a
  end.
Proof.
  intros os al r L. pose proof (C16_process_index os al r 0%Z L) as [A B]. 
  change (get_allocated_address MainPool (run os) al r) with (get_allocated_address (ProcessIndex 0) (run os) al r).
  destruct (processes os) as [|p ps].
  - apply B. simpl. lia.
  - destruct A as [q [a [E [M G]]]]; [simpl; lia|]. simpl in E. inversion E; subst. eauto.
Qed.

(** The addresses of the pools, in the order of [processes os]. *)
Lemma listed_all : forall os, Forall addressed os ->
  get_external_addresses (run os) None = Ok (listed (pools (run os)) None) /\
  Forall2 (main_address os) (processes os) (listed (pools (run os)) None).
Proof.
  intros os L. split; [now apply listed_ok|]. destruct (reachp os L) as [ND PO NE].
  assert (K : forall i p, In (i, p) (pools (run os)) -> after os i = Some p).
  { intros. rewrite <- PO. apply (gIn_get _ Nat.eqb_spec); auto. }
  rewrite <- (proc_run os L). unfold get_process_indexes, listed. revert K NE. generalize (pools (run os)).
  induction l as [|[i p] l IH]; simpl; intros K NE; constructor.
  - pose proof (K i p (or_introl eq_refl)) as H. pose proof (NE i p H) as Q.
    exists p, (tl (c_external p)). split; auto. unfold first_ext. destruct (c_external p); simpl; congruence.
  - apply IH; auto.
Qed.

Lemma listed_sub : forall os, Forall addressed os -> forall p ps, processes os = p :: ps ->
  Forall2 (main_address os) ps (skipn 1 (listed (pools (run os)) None)).
Proof.
  intros os L p ps E. destruct (listed_all os L) as [_ F]. rewrite E in F. inversion F; subst. auto.
Qed.

(** Random: the address of some process, and any process is possible. *)
Theorem C16_random : forall os al, Forall addressed os ->
  (forall r a, get_allocated_address Random (run os) al r = Ok a ->
     exists p, In p (processes os) /\ main_address os p a) /\
  (forall p a, In p (processes os) -> main_address os p a ->
     exists r, get_allocated_address Random (run os) al r = Ok a) /\
  (forall r e, get_allocated_address Random (run os) al r = Err e -> e = IndexError /\ processes os = []).
Proof.
  intros os al L. destruct (listed_all os L) as [E F]. simpl. rewrite E. simpl.
  repeat split.
  - intros r a H. apply choice_In in H.
    clear E. induction F; [contradiction|]. destruct H as [H|H].
    + subst. exists x. simpl; auto.
    + destruct (IHF H) as [q [A B]]. exists q. simpl; auto.
  - intros p a Hp M. apply choice_all.
    clear E. induction F; [contradiction|]. destruct Hp as [H0|H0].
    + subst. destruct M as [q [s [M1 M2]]], H as [q' [s' [N1 N2]]]. left. congruence.
    + right. auto.
  - apply choice_err in H. tauto.
  - apply choice_err in H. destruct H as [_ H]. rewrite H in F. now inversion F.
Qed.

(** RandomSubPool: the address of some process other than the first. *)
Theorem C16_random_sub_pool : forall os al p ps, Forall addressed os -> processes os = p :: ps ->
  (forall r a, get_allocated_address RandomSubPool (run os) al r = Ok a ->
     exists q, In q ps /\ main_address os q a) /\
  (forall q a, In q ps -> main_address os q a ->
     exists r, get_allocated_address RandomSubPool (run os) al r = Ok a) /\
  (forall r e, get_allocated_address RandomSubPool (run os) al r = Err e -> e = IndexError /\ ps = []).
Proof.
  intros os al p ps L P. destruct (listed_all os L) as [E _]. pose proof (listed_sub os L p ps P) as F.
  unfold get_allocated_address. rewrite E. cbn [bind].
  repeat split.
  - intros r a H. apply choice_In in H. clear P.
    clear E. induction F; [contradiction|]. destruct H as [H|H].
    + subst. exists x. simpl; auto.
    + destruct (IHF H) as [q [A B]]. exists q. simpl; auto.
  - intros q a Hp M. apply choice_all. clear P.
    clear E. induction F; [contradiction|]. destruct Hp as [H0|H0].
    + subst. destruct M as [q1 [s [M1 M2]]], H as [q' [s' [N1 N2]]]. left. congruence.
    + right. auto.
  - apply choice_err in H. tauto.
  - apply choice_err in H. destruct H as [_ H]. rewrite H in F. now inversion F.
Qed.

(** RandomLabel(l): the address of some pool with the label; IndexError exactly
    when there is none.  (A label None means no restriction.) *)
Theorem C16_random_label : forall os al l, Forall addressed os ->
  (forall r a, get_allocated_address (RandomLabel (Some l)) (run os) al r = Ok a ->
     exists i p, after os i = Some p /\ c_label p = Some l /\ main_address os i a) /\
  (forall i p a, after os i = Some p -> c_label p = Some l -> main_address os i a ->
     exists r, get_allocated_address (RandomLabel (Some l)) (run os) al r = Ok a) /\
  (forall r e, get_allocated_address (RandomLabel (Some l)) (run os) al r = Err e ->
     e = IndexError /\ forall i p, after os i = Some p -> c_label p <> Some l).
Proof.
  intros os al l L. pose proof (listed_ok os L (Some l)) as E. pose proof (listed_In os L (Some l)) as A.
  set (as_ := listed (pools (run os)) (Some l)) in *.
  simpl. rewrite E. simpl. repeat split.
  - intros r a H. apply choice_In in H. apply A in H. destruct H as [i [p [s [H1 [H2 H3]]]]].
    exists i, p. destruct H3 as [H3|H3]; [discriminate|]. repeat split; auto. exists p, s; auto.
  - intros i p a H1 H2 [q [s [H3 H4]]]. apply choice_all. apply A. exists i, q, s.
    repeat split; auto. right. congruence.
  - apply choice_err in H. tauto.
  - apply choice_err in H. destruct H as [_ H]. intros i p H1 H2.
    destruct (reachp os L) as [ND PO NE].
    destruct (c_external p) as [|a s] eqn:X; [eapply NE; eauto|].
    assert (Q : In a as_) by (apply A; exists i, p, s; auto). rewrite H in Q. contradiction.
Qed.

(** IdleLabel(l, mark): the address of a pool with the label at which nothing
    is recorded with the same IdleLabel; NoIdleSlot exactly when every pool with
    the label has one. *)
Theorem C16_idle_label : forall os al l mark, Forall addressed os ->
  (forall r a, get_allocated_address (IdleLabel (Some l) mark) (run os) al r = Ok a ->
     (exists i p, after os i = Some p /\ c_label p = Some l /\ main_address os i a) /\
     ~ In (IdleLabel (Some l) mark) (al a)) /\
  (forall r e, get_allocated_address (IdleLabel (Some l) mark) (run os) al r = Err e ->
     e = NoIdleSlot /\
     forall i p a, after os i = Some p -> c_label p = Some l -> main_address os i a ->
                   In (IdleLabel (Some l) mark) (al a)).
Proof.
  intros os al l mark L. pose proof (listed_ok os L (Some l)) as E. pose proof (listed_In os L (Some l)) as A.
  set (as_ := listed (pools (run os)) (Some l)) in *.
  simpl. rewrite E. simpl. split.
  - intros r a H. apply first_idle_ok in H. destruct H as [H1 H2]. split.
    + apply A in H1. destruct H1 as [i [p [s [B [C D]]]]]. exists i, p.
      destruct D as [D|D]; [discriminate|]. repeat split; auto. exists p, s; auto.
    + intros I. assert (X : existsb (fun s => same_idle s (Some l) mark) (al a) = true).
      { apply existsb_exists. eexists. split; eauto. now apply same_idle_eq. }
      congruence.
  - intros r e H. apply first_idle_err in H. destruct H as [H1 H2]. split; auto.
    intros i p a B C [q [s [D F]]].
    assert (I : In a as_). { apply A. exists i, q, s. repeat split; auto. right. congruence. }
    apply H2 in I. apply existsb_exists in I. destruct I as [x [I1 I2]]. apply same_idle_eq in I2. congruence.
Qed.

(** ** The hypotheses are met *)
Definition demo : list op :=
  [Add 0 (Some "main") (Some "unix:0") ["h:1"];
   Add 1 (Some "io") (Some "unix:1") ["h:2"; "g:2"];
   Add 2 (Some "io") (Some "unix:2") ["h:3"];
   Reset 1 "h:9" ["g:9"]; Remove 2; Add 2 None None ["h:4"]].

Example demo_legal : legal nobody demo.
Proof.
  simpl. unfold nobody, upd, owns; simpl.
  repeat split; try discriminate; try (eexists; split; [reflexivity|]; simpl; intros; congruence).
  - intros a j _ [p [E _]]. discriminate.
  - intros a j [H|[H|[]]] [p [E I]]; destruct j as [|[|j]]; try discriminate; inversion E; subst; simpl in I; intuition congruence.
  - intros a j [H|[]] [p [E I]]; destruct j as [|[|j]]; try discriminate; inversion E; subst; simpl in I; intuition congruence.
  - eexists. split; [reflexivity|]. simpl. intros x H [I|[I|[]]]; inversion H; subst; discriminate.
  - intros x j [H|[H|[]]] D [p [E I]]; destruct j as [|[|[|j]]]; try discriminate; inversion E; subst; simpl in I; intuition congruence.
  - eexists _, _. split; reflexivity.
  - intros a j [H|[]] [p [E I]]; destruct j as [|[|[|j]]]; try discriminate; inversion E; subst; simpl in I; intuition congruence.
Qed.

Example demo_addressed : Forall addressed demo.
Proof. repeat constructor; discriminate. Qed.

Example demo_values :
  processes demo = [0; 1; 2] /\
  internal_of (run demo) "g:9" = Some (Some "unix:1") /\
  internal_of (run demo) "h:2" = None /\
  get_process_index (run demo) "h:4" = Ok 2 /\
  get_external_addresses (run demo) (Some "io") = Ok ["h:9"] /\
  get_allocated_address (ProcessIndex (-1)) (run demo) (fun _ => []) 0 = Ok "h:4" /\
  get_allocated_address (IdleLabel (Some "io") "m") (run demo)
     (fun a => if String.eqb a "h:9" then [IdleLabel (Some "io") "m"] else []) 0 = Err NoIdleSlot /\
  get_allocated_address RandomSubPool (run demo) (fun _ => []) 7 = Ok "h:4".
Proof. repeat split. Qed.

Print Assumptions C20_lookups_and_errors_partial.
Print Assumptions C20_internal_address_partial.
Print Assumptions C20_process_index_partial.
Print Assumptions C20_addresses_with_label_partial.
Print Assumptions C20_config_refuted.
Print Assumptions C20_second_move_refuted.
Print Assumptions C20_shared_address_refuted.
Print Assumptions C16_address_specified.
Print Assumptions C16_process_index.
Print Assumptions C16_main_pool.
Print Assumptions C16_random.
Print Assumptions C16_random_sub_pool.
Print Assumptions C16_random_label.
Print Assumptions C16_idle_label.
