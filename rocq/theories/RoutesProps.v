(** * C66: a process finds its pools, whatever pools start, change and stop in it

    Reading guide.  Several actor pools may live in one process (a supervisor
    and a worker, say).  [os] is what happens to them, in order: a pool is made
    ([Start]), gains or loses a worker process ([Learn]/[Forget] in its
    configuration, then [Sync], which tells the process's routing table: that is
    how append_sub_pool and remove_sub_pool work), receives a new configuration
    from its main pool ([Receive], in worker processes) and stops ([Stop]:
    twice, at the beginning and at the end of [stop()]).
    [after os]: who runs and which addresses it has (RoutesSpec).
    [resolve (global (run os)) a []]: the address to which the process connects
    when it makes a call to address [a].
    [orderly], [exclusive]: the pools are used as they should be, and no two
    pools have the same address at the same time. *)
From Coq Require Import String List Bool Arith Lia.
From Verif Require Import Dict RouterModel RoutesModel RoutesSpec RoutesProofs.
Import ListNotations.
Open Scope string_scope.
Open Scope list_scope.

(** ** What holds *)

(** A call to a running pool of the process stays within the process, a call to
    one of its worker processes takes the worker's internal address. *)
Theorem C66_own_addresses : forall os a, orderly os -> exclusive os a ->
  forall p v, after os p = Some v -> ph v = Running ->
  (In a (here v) -> forall proxies, resolve (global (run os)) a proxies = inproc v) /\
  (~ In a (here v) -> forall i, told v a = Some (Some i) -> forall proxies, resolve (global (run os)) a proxies = i).
Proof.
  intros os a O X p v E P. destruct (routes_run os a O X) as [A B C]. split.
  - intros I proxies. unfold resolve, get_internal_address. now rewrite (A p v E P I).
  - intros N i T proxies. unfold resolve, get_internal_address. rewrite B.
    + now rewrite (C p v (Some i) E P T).
    + intros r u W Pr I. assert (r = p); [|congruence].
      eapply (exclusive_now os a X); [exists u|exists v]; repeat split; auto; try congruence. right; right. congruence.
Qed.

(** A call to an address that no pool of the process ever had goes to that
    address, or to the proxy that is configured for it. *)
Definition foreign (os : list op) (a : addr) : Prop :=
  forall o, In o os -> match o with
    | Start _ q => ~ In a (own q) /\ ~ In a (map fst (tab q))
    | Learn _ b _ => b <> a
    | Receive _ t => ~ In a (map fst t)
    | _ => True
    end.
Theorem C66_other_addresses : forall os a, foreign os a ->
  (get_proxy (global (run os)) a = None -> resolve (global (run os)) a [] = a) /\
  get_internal_address (global (run os)) a = None.
Proof.
  intros os a F. destruct (never_run os a) as (A & B & _).
  { intros o I M. specialize (F o I). destruct o; cbn [mentions] in M; try tauto; try congruence. }
  assert (G : get_internal_address (global (run os)) a = None) by (unfold get_internal_address; now rewrite A, B).
  split; [|exact G]. intros Np. unfold resolve. now rewrite G, Np.
Qed.

(** A call to an address that no running pool of the process has any more goes to
    that address, if it was never taken out of a main pool's configuration.
    Missing: addresses of removed worker processes ([C66_removed_worker_refuted]). *)
Theorem C66_former_addresses_partial : forall os a, orderly os -> exclusive os a -> (forall p, ~ In (Forget p a) os) ->
  (forall p v, after os p = Some v -> ph v = Running -> ~ In a (here v) /\ told v a = None) ->
  get_internal_address (global (run os)) a = None.
Proof.
  intros os a O X F N. destruct (routes_run os a O X) as [_ B _]. destruct (stale_run os a O F) as [_ C].
  unfold get_internal_address. rewrite B, C; [reflexivity| |].
  - intros p v E P. apply (N p v E P).
  - intros p v E P. apply (N p v E P).
Qed.

(** create_actor without an address goes to the running pool that started or
    announced its workers longest ago, at its first address.
    Missing: that this remains the same pool ([C66_default_pool_refuted]). *)
Theorem C66_default_pool_partial : forall os, orderly os -> (forall a, exclusive os a) ->
  (forall p v, after os p = Some v -> here v <> []) ->
  (forall p, In p (by_announcement os) <-> runs (after os) p) /\
  match by_announcement os with
  | [] => external_address (global (run os)) = None
  | p :: _ => exists v a, after os p = Some v /\ hd_error (here v) = Some a /\ external_address (global (run os)) = Some a
  end.
Proof.
  intros os O X NE. destruct (order_run os O X) as (A & N & M). split; [exact M|].
  unfold external_address. rewrite A. destruct (by_announcement os) as [|p l]; [reflexivity|].
  destruct (proj1 (M p) (or_introl eq_refl)) as (v & E & P). cbn [heres flat_map]. rewrite E.
  specialize (NE p v E). destruct (here v) as [|a h] eqn:H; [congruence|]. exists v, a. rewrite H. auto.
Qed.

(** Proxies that are used were configured for some pool of the process, and
    those configured for a pool are used.
    Missing: that they are used only as long as that pool runs
    ([C66_proxies_refuted]). *)
Theorem C66_proxies_partial : forall os k, orderly os ->
  (forall v, lookup (r_proxy (global (run os))) k = Some v -> exists p q, In (Start p q) os /\ lookup (prx q) k = Some v) /\
  (forall p q v, In (Start p q) os -> lookup (prx q) k = Some v ->
     (forall p' q' v', In (Start p' q') os -> lookup (prx q') k = Some v' -> v' = v) ->
     lookup (r_proxy (global (run os))) k = Some v).
Proof.
  intros os k O. split; [intros v; now apply proxies_run|].
  intros p q v I L U. destruct (proxies_stay os k O p q v I L) as [v' E]. rewrite E. f_equal.
  destruct (proxies_run os k v' O E) as (p' & q' & I' & L'). eauto.
Qed.

(** ** What does not hold *)

Definition pool_a : pool := {| own := ["h:1"]; loc := "dummy://0"; tab := [("h:1", Some "unixsocket:///0"); ("h:2", Some "unixsocket:///1")]; prx := [] |}.
Definition pool_b : pool := {| own := ["h:7"]; loc := "dummy://9"; tab := [("h:7", Some "unixsocket:///9")]; prx := [] |}.

Lemma exclusive_one : forall os a p, (forall o, In o os -> match o with Start q _ => q = p | _ => True end) -> exclusive os a.
Proof.
  intros os a p H os1 os2 E q r U V.
  assert (G : forall l, (forall o, In o l -> match o with Start q _ => q = p | _ => True end) -> forall q v, after l q = Some v -> q = p).
  { clear. induction l as [|o l IH] using rev_ind; intros H q v E; [discriminate|]. rewrite after_snoc in E.
    assert (IH' : forall q v, after l q = Some v -> q = p) by (intros; eapply IH; eauto; intros; apply H, in_or_app; auto).
    assert (Ho : match o with Start q _ => q = p | _ => True end) by (apply H, in_or_app; right; now left).
    destruct o as [r x|r b i|r b|r|r t|r]; cbn [happens] in E; try (destruct (after l r) eqn:Er; [|eauto]);
      (destruct (Nat.eq_dec q r) as [->|Ne]; [eauto|rewrite upd_ne in E by auto; eauto]). }
  assert (H1 : forall o, In o os1 -> match o with Start q _ => q = p | _ => True end) by (intros o I; apply H; rewrite E; apply in_or_app; auto).
  destruct U as (u & U & _), V as (v & V & _). now rewrite (G os1 H1 q u U), (G os1 H1 r v V).
Qed.

Ltac order := intros os1 o os2 E; repeat (destruct os1 as [|? os1]; cbn [app] in E;
  [injection E as <- _|injection E as <- E]); try discriminate; try (destruct os1; discriminate);
  cbn; repeat split; repeat constructor; cbn; try (intuition discriminate); try (eexists; split; [reflexivity|]; cbn; try reflexivity; try discriminate).

(** Addresses of nobody: the full statement. *)
Definition C66_claim : Prop := forall os a, orderly os -> exclusive os a ->
  (forall p v, after os p = Some v -> ph v = Running -> ~ In a (here v) /\ known v a = None /\ told v a = None) ->
  get_internal_address (global (run os)) a = None.

(** A worker at h:2 is removed with remove_sub_pool.  The address stays in the
    process's routing table, since the configuration and the pool's router share
    one dictionary, from which it has already gone when the router is taken out
    of the routing table (pool.py 337, router.py 114-115).  It even stays when the
    pool is stopped.  If another pool is then started on h:2, by whatever
    process, calls to it go to the old worker's socket and fail. *)
Definition removal : list op := [Start 0 pool_a; Forget 0 "h:2"; Sync 0].
Theorem C66_removed_worker_refuted :
  ~ C66_claim /\
  resolve (global (run removal)) "h:2" [] = "unixsocket:///1" /\
  resolve (global (run (removal ++ [Stop 0; Stop 0]))) "h:2" [] = "unixsocket:///1".
Proof.
  split; [|split; reflexivity]. intros H.
  assert (X : get_internal_address (global (run removal)) "h:2" = None); [|discriminate X].
  apply H.
  - order.
  - apply (exclusive_one _ _ 0). unfold removal. cbn [In]. intuition subst; auto.
  - intros p v E _. destruct p as [|p]; [|discriminate]. cbn in E. injection E as <-. cbn. repeat split; auto. intuition discriminate.
Qed.

(** The pool that create_actor uses by default remains the same while it runs:
    refuted.  Two pools; the first one appends a worker: from now on actors are
    created in the second one. *)
Definition C66_default_claim : Prop := forall os o p v a, orderly (os ++ [o]) -> (forall a, exclusive (os ++ [o]) a) ->
  after os p = Some v -> In a (here v) -> external_address (global (run os)) = Some a ->
  runs (after (os ++ [o])) p -> external_address (global (run (os ++ [o]))) = Some a.

Lemma exclusive_two : forall a, exclusive [Start 0 pool_a; Start 1 pool_b; Learn 0 "h:3" (Some "unixsocket:///2"); Sync 0] a.
Proof.
  intros a os1 os2 E p q (u & U1 & _ & U) (v & V1 & _ & V).
  do 5 try (destruct os1 as [|x os1]; [|cbn [app] in E; try discriminate; injection E as <- E]); try discriminate;
    destruct p as [|[|p]]; cbn in U1; try discriminate; destruct q as [|[|q]]; cbn in V1; try discriminate; try reflexivity;
    exfalso; injection U1 as <-; injection V1 as <-; unfold of_table in *; cbn [here known told own tab pool_a pool_b In find fst] in U, V;
    repeat match goal with H : context [String.eqb ?b a] |- _ => destruct (String.eqb_spec b a); subst end;
    repeat match goal with H : context [String.eqb a ?b] |- _ => destruct (String.eqb_spec a b); subst end;
    cbn in *; intuition (try discriminate; try congruence).
Qed.

Theorem C66_default_pool_refuted : ~ C66_default_claim.
Proof.
  intros H.
  assert (X : external_address (global (run ([Start 0 pool_a; Start 1 pool_b; Learn 0 "h:3" (Some "unixsocket:///2")] ++ [Sync 0]))) = Some "h:1"); [|discriminate X].
  eapply (H _ _ 0).
  - order.
  - exact exclusive_two.
  - reflexivity.
  - now left.
  - reflexivity.
  - eexists. split; reflexivity.
Qed.

(** Proxies are used only as long as a pool runs for which they were configured:
    refuted.  [remove_router] does not remove them. *)
Definition C66_proxies_claim : Prop := forall os k v, orderly os -> lookup (r_proxy (global (run os))) k = Some v ->
  exists p q, In (Start p q) os /\ runs (after os) p /\ lookup (prx q) k = Some v.

Definition with_proxy : pool := {| own := ["h:1"]; loc := "dummy://0"; tab := [("h:1", Some "unixsocket:///0")]; prx := [("x:5", "gate:1")] |}.
Theorem C66_proxies_refuted : ~ C66_proxies_claim /\
  (** a pool that is started later connects to the proxy of the stopped one *)
  resolve (global (run [Start 0 with_proxy; Stop 0; Stop 0; Start 1 pool_b])) "x:5" [] = "gate:1".
Proof.
  split; [|reflexivity]. intros H. destruct (H [Start 0 with_proxy; Stop 0; Stop 0] "x:5" "gate:1") as (p & q & I & (v & E & P) & _).
  - order.
  - reflexivity.
  - destruct I as [I|[I|[I|[]]]]; try discriminate. injection I as <- <-. cbn in E. injection E as <-. discriminate.
Qed.

(** Stopped pools have no routes: refuted if an append_sub_pool is still under way
    when the pool is stopped, since its [Sync] comes later. *)
Definition C66_stopped_claim : Prop := forall os p v a, after os p = Some v -> ph v = Closed ->
  (forall q u, after os q = Some u -> q = p) -> In a (here v) -> get_internal_address (global (run os)) a = None.
Theorem C66_late_append_refuted : ~ C66_stopped_claim /\
  resolve (global (run [Start 0 pool_a; Stop 0; Stop 0; Learn 0 "h:3" (Some "unixsocket:///2"); Sync 0])) "h:1" [] = "dummy://0".
Proof.
  split; [|reflexivity]. intros H.
  assert (X : get_internal_address (global (run [Start 0 pool_a; Stop 0; Stop 0; Sync 0])) "h:1" = None); [|discriminate X].
  eapply (H _ 0).
  - reflexivity.
  - reflexivity.
  - intros q u E. destruct q; [reflexivity|discriminate].
  - now left.
Qed.

(** Stopping a pool again is harmless: refuted if its address is used by a new pool. *)
Theorem C66_second_stop_refuted :
  ~ (forall os p v, after os p = Some v -> ph v = Closed ->
       forall a, get_internal_address (global (run (os ++ [Stop p]))) a = get_internal_address (global (run os)) a).
Proof.
  intros H. specialize (H [Start 0 pool_a; Stop 0; Stop 0; Start 1 pool_a] 0 _ eq_refl eq_refl "h:1"). discriminate H.
Qed.

(** ** Examples *)
Module Demo.
  Definition day : list op :=
    [Start 0 pool_a; Start 1 pool_b; Learn 0 "h:3" (Some "unixsocket:///2"); Sync 0].
  Example day_orderly : orderly day. Proof. order. Qed.
  Example day_exclusive : forall a, exclusive day a. Proof. exact exclusive_two. Qed.
  Example day_routes : resolve (global (run day)) "h:1" [] = "dummy://0" /\ resolve (global (run day)) "h:2" [] = "unixsocket:///1" /\
    resolve (global (run day)) "h:3" [] = "unixsocket:///2" /\ resolve (global (run day)) "h:7" [] = "dummy://9" /\
    resolve (global (run day)) "k:1" [] = "k:1".
  Proof. repeat split. Qed.
  Example day_default : by_announcement day = [1; 0] /\ external_address (global (run day)) = Some "h:7".
  Proof. split; reflexivity. Qed.
  Example worker : (* a worker process: configurations come in messages, removals work *)
    let os := [Start 5 {| own := ["h:2"]; loc := "dummy://1"; tab := tab pool_a; prx := [] |}; Receive 5 [("h:2", Some "unixsocket:///1")]] in
    orderly os /\ resolve (global (run os)) "h:1" [] = "h:1" /\ resolve (global (run os)) "h:2" [] = "dummy://1".
  Proof. split; [order|split; reflexivity]. Qed.
End Demo.

Print Assumptions C66_own_addresses.
Print Assumptions C66_other_addresses.
Print Assumptions C66_former_addresses_partial.
Print Assumptions C66_default_pool_partial.
Print Assumptions C66_proxies_partial.
Print Assumptions C66_removed_worker_refuted.
Print Assumptions C66_default_pool_refuted.
Print Assumptions C66_proxies_refuted.
Print Assumptions C66_late_append_refuted.
Print Assumptions C66_second_stop_refuted.
