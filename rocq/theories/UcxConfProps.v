(** * C72: UCX settings

    Reading guide.  A process is a history of [Init c numba ok] (a UCX server is created
    or a UCX channel opened with settings [c]; [numba]: the CUDA support is installed;
    [ok]: [ucp.init()] does not raise), [SetEnv k v] (the program sets a variable) and
    [Reset].  [attempts] lists the calls of [ucp.init] and what each was given, [inits]
    the ones that succeeded.  What is promised is [UcxConfSpec.documented]: for each
    setting the process environment, else the flags, else the entries of "environment".

    The full claim, [settings_take_effect], is refuted: the options computed from the
    flags are not passed to [ucp.init()] (ucx.py 182), and the entries of "environment"
    are put into a plain dict bound to the name os.environ (176-179), which changes
    nothing in the environment that the UCX library reads. *)
From Coq Require Import List Bool Arith Lia Ascii String.
From Verif Require Import PyStr UcxConfModel UcxConfSpec UcxConfProofs.
Import ListNotations.
Open Scope list_scope.

(** The full claim: what UCX works with is what is documented. *)
Definition settings_take_effect : Prop :=
  forall env os c h x v, In (c, h) (inits (run (fresh_process env) os)) ->
    documented c (h_process h) x v -> ucx_uses h x v.

Lemma recorded_in env os c h : In (c, h) (attempts (run (fresh_process env) os)) ->
  h_options h = [] /\ h_python h = dupdate (h_process h) (snd (get_options c (h_process h))).
Proof. intros H. destruct (recorded_run env os) as [A _]. rewrite Forall_forall in A. exact (A _ H). Qed.
Lemma uses_env h x v : h_options h = [] -> (ucx_uses h x v <-> last_entry (variable x) (h_process h) v).
Proof.
  intros E. split.
  - intros [w (a & k & b & Q & _)|w _ H]; [|exact H]. rewrite E in Q. destruct a; discriminate.
  - intros H. apply by_variable; [|exact H]. rewrite E. intros ? ? [].
Qed.

(** Settings of the process environment are respected, whatever the pool's settings say,
    and a setting that nobody gave stays UCX's own. *)
Theorem C72_environment_wins_partial env os c h x v :
  In (c, h) (attempts (run (fresh_process env) os)) ->
  last_entry (variable x) (h_process h) v ->
  documented c (h_process h) x v /\ ucx_uses h x v.
Proof.
  intros H E. split; [now apply from_environment|]. apply uses_env; [|exact E]. now destruct (recorded_in _ _ _ _ H).
Qed.
Theorem C72_nothing_is_invented env os c h x v :
  In (c, h) (attempts (run (fresh_process env) os)) -> ucx_uses h x v -> documented c (h_process h) x v.
Proof.
  intros H U. apply uses_env in U; [now apply from_environment|]. now destruct (recorded_in _ _ _ _ H).
Qed.

(** What UCX uses is the process environment and nothing else. *)
Theorem C72_only_the_environment_counts env os c h x v :
  In (c, h) (attempts (run (fresh_process env) os)) ->
  (ucx_uses h x v <-> last_entry (variable x) (h_process h) v).
Proof. intros H. apply uses_env. now destruct (recorded_in _ _ _ _ H). Qed.

(** What Python code sees in [os.environ] while UCX is initialised: each variable UCX_x as
    documented, except that settings made by flags are not there; all others unchanged. *)
Theorem C72_python_sees env os c h x v :
  In (c, h) (attempts (run (fresh_process env) os)) ->
  (last_entry (variable x) (h_python h) v
   <-> documented c (h_process h) x v /\ ~ (no_entry (variable x) (h_process h) /\ exists w, by_flags c x w)).
Proof.
  intros H. destruct (recorded_in _ _ _ _ H) as [_ ->]. rewrite <- var_get, python_sees. split.
  - intros [E|(N & F & E)].
    + split; [now apply from_environment|]. intros [N _]. exact (entry_excl _ _ _ N E).
    + split; [now apply from_entries|]. intros [_ [w B]]. exact (F w B).
  - intros [D NN]. inversion D as [? E|? N B|? N F E]; subst; [now left| |right; auto].
    exfalso. apply NN. split; [exact N|eauto].
Qed.
Theorem C72_python_sees_others env os c h k :
  In (c, h) (attempts (run (fresh_process env) os)) -> (forall x, ~ variable x k) ->
  forall v, last_entry (eq k) (h_python h) v <-> last_entry (eq k) (h_process h) v.
Proof.
  intros H N v. destruct (recorded_in _ _ _ _ H) as [_ ->]. rewrite <- !dget_some, python_sees_others; [reflexivity|exact N].
Qed.

(** The environment of the process is never changed by UCX's initialisation, and
    [os.environ] is the process environment again, whether [ucp.init] succeeded or not. *)
Theorem C72_environment_restored env os :
  process_env (run (fresh_process env) os) = env ++ settings os
  /\ os_environ (run (fresh_process env) os) = TheProcess.
Proof. apply (run_env (fresh_process env) os). Qed.

(** UCX is initialised at most once (without a reset), with the first settings that succeed:
    later settings are ignored. *)
Lemma once_aux env os : ~ In Reset os ->
  let p := run (fresh_process env) os in
  List.length (inits p) <= 1 /\ (inited p = true <-> inits p <> []) /\ (inited p = true -> exists l, attempts p = inits p ++ l).
Proof.
  induction os as [|o os IH] using rev_ind; intros NR.
  - cbn. repeat split; auto; try congruence. 
  - assert (NR' : ~ In Reset os) by (intros X; apply NR; apply in_or_app; auto).
    specialize (IH NR'). cbv zeta in *. rewrite run_app. cbn [run fold_left].
    change (fold_left step os (fresh_process env)) with (run (fresh_process env) os).
    set (p := run (fresh_process env) os) in *. destruct IH as (L & Q & A).
    destruct o; cbn [step]; [|now cbn|exfalso; apply NR; apply in_or_app; right; now left].
    unfold init. destruct (inited p) eqn:E; [cbn [fst]; rewrite E; auto|].
    assert (Z : inits p = []) by (destruct (inits p); [reflexivity|]; destruct Q as [_ Q]; assert (false = true) by (apply Q; discriminate); discriminate).
    destruct (get_options c (python_env p)) as [o en].
    destruct (_ && _); [cbn [fst]; rewrite E; auto|].
    destruct ok; cbn; rewrite Z.
    + repeat split; auto; try discriminate. intros _. eexists. reflexivity.
    + repeat split; auto; try congruence; try discriminate.
Qed.
Theorem C72_initialised_once env os : ~ In Reset os -> List.length (inits (run (fresh_process env) os)) <= 1.
Proof. intros H. apply (once_aux env os H). Qed.
Theorem C72_first_settings_stay env os c numba ok : inits (run (fresh_process env) os) <> [] -> ~ In Reset os ->
  init c numba ok (run (fresh_process env) os) = (run (fresh_process env) os, Fine).
Proof.
  intros N NR. unfold init. destruct (once_aux env os NR) as (_ & Q & _). apply Q in N. now rewrite N.
Qed.
(** A failure is reported, leaves UCX to be initialised by the next attempt, and nothing else. *)
Theorem C72_failure_is_retried env os c numba ok :
  let p := run (fresh_process env) os in
  inited p = false ->
  let '(p', e) := init c numba ok p in
  (e = Fine <-> inited p' = true) /\ (inited p' = true <-> ok = true /\ (needs_cuda c (process_env p) -> numba = true)).
Proof.
  intros p E. unfold init. rewrite E.
  assert (PE : python_env p = process_env p) by (unfold python_env; now rewrite (proj2 (run_env (fresh_process env) os) : os_environ p = TheProcess)).
  rewrite PE. assert (W := wants_cuda_spec c (process_env p)).
  destruct (get_options c (process_env p)) as [o en]. cbn [fst snd] in W.
  destruct (wants_cuda c (process_env p) o en) eqn:WC; cbn [andb].
  - destruct numba; cbn [negb].
    + destruct ok; cbn; rewrite ?E; intuition (congruence || discriminate).
    + cbn. rewrite E. assert (needs_cuda c (process_env p)) by now apply W. intuition (congruence || discriminate).
  - assert (NC : ~ needs_cuda c (process_env p)) by (intros X; apply W in X; discriminate).
    destruct ok; cbn; rewrite ?E; intuition (congruence || discriminate).
Qed.
(** After a reset UCX is initialised again, with the settings and the environment of then. *)
Theorem C72_reset env os c : exists h,
  inits (run (fresh_process env) (os ++ [Reset; Init c true true])) = (c, h) :: inits (run (fresh_process env) os)
  /\ h_process h = process_env (run (fresh_process env) os).
Proof.
  rewrite run_app. set (p := run (fresh_process env) os). cbn [run fold_left step]. unfold init. cbn [reset inited].
  destruct (get_options c (python_env (reset p))) as [o en]. rewrite andb_false_r. cbn [fst inits reset]. eexists. split; [reflexivity|]. reflexivity.
Qed.
(** A CUDA context is created first exactly when the documented settings need one. *)
Theorem C72_cuda_context env os c numba ok :
  let p := run (fresh_process env) os in
  inited p = false ->
  let '(p', e) := init c numba ok p in
  (contexts p' = S (contexts p) <-> needs_cuda c (process_env p) /\ numba = true)
  /\ (contexts p' = contexts p \/ contexts p' = S (contexts p))
  /\ (e = ImportErr <-> needs_cuda c (process_env p) /\ numba = false).
Proof.
  intros p E. unfold init. rewrite E.
  assert (PE : python_env p = process_env p) by (unfold python_env; now rewrite (proj2 (run_env (fresh_process env) os) : os_environ p = TheProcess)).
  rewrite PE. assert (W := wants_cuda_spec c (process_env p)).
  destruct (get_options c (process_env p)) as [o en]. cbn [fst snd] in W.
  destruct (wants_cuda c (process_env p) o en) eqn:WC; cbn [andb].
  - assert (NC : needs_cuda c (process_env p)) by now apply W.
    destruct numba; cbn [negb].
    + destruct ok; cbn; intuition (congruence || discriminate).
    + cbn. split; [split; [intros X; exfalso; lia|intros [_ X]; discriminate]|]. split; [auto|]. split; auto.
  - assert (NC : ~ needs_cuda c (process_env p)) by (intros X; apply W in X; discriminate).
    destruct ok; cbn; (split; [split; [intros X; exfalso; lia|tauto]|]; split; [auto|]; split; [discriminate|tauto]).
Qed.

(** The full claim is false: with the flag "tcp" UCX is not told to use tcp. *)
Definition tcp_only : conf := mkConf true false false false false false [].
Definition with_entry : conf := mkConf false false false false false false [(lit "net-devices", lit "eth0")].
Theorem C72_settings_take_effect_refuted : ~ settings_take_effect.
Proof.
  intros H. specialize (H [] [Init tcp_only false true] tcp_only (mkHanded [] [] []) (lit "TLS") (lit "tcp")).
  assert (U : ucx_uses (mkHanded [] [] []) (lit "TLS") (lit "tcp")).
  { apply H; [left; reflexivity|]. apply from_flags; [intros ? ? []|]. apply (flags_transports tcp_only). now left. }
  apply uses_env in U; [|reflexivity]. destruct U as ([|? ?] & k & b & X & _); discriminate.
Qed.
(** Nor do the entries of "environment" take effect. *)
Theorem C72_entries_take_effect_refuted :
  ~ (forall env os c h x v, In (c, h) (inits (run (fresh_process env) os)) ->
       (forall w, ~ by_flags c x w) -> documented c (h_process h) x v -> ucx_uses h x v).
Proof.
  intros H. specialize (H [] [Init with_entry false true] with_entry
    (mkHanded [] [] [(lit "UCX_NET_DEVICES", lit "eth0")]) (lit "NET_DEVICES") (lit "eth0")).
  assert (NF : forall w, ~ by_flags with_entry (lit "NET_DEVICES") w) by (intros w B; inversion B).
  assert (U : ucx_uses (mkHanded [] [] [(lit "UCX_NET_DEVICES", lit "eth0")]) (lit "NET_DEVICES") (lit "eth0")).
  { apply H; [left; reflexivity|exact NF|]. apply from_entries; [intros ? ? []|exact NF|].
    exists [], (lit "net-devices"), []. repeat split; [|intros ? ? []]. apply names_map. reflexivity. }
  apply uses_env in U; [|reflexivity]. destruct U as ([|? ?] & k & b & X & _); discriminate.
Qed.

Module Demo.
  Definition conf1 : conf := mkConf false true true true false false
    [(lit "net-devices", lit "eth0"); (lit "tls", lit "tcp"); (lit "LOG-LEVEL", lit "warn"); (lit "log-level", lit "info")].
  Definition env1 : dict := [(lit "HOME", lit "/root"); (lit "UCX_NET_DEVICES", lit "ib0")].
  Definition h1 : handed := mkHanded [] env1 (env1 ++ [(lit "UCX_LOG_LEVEL", lit "warn"); (lit "UCX_LOG_LEVEL", lit "info")]).
  Definition hist1 : list op := [Init conf1 false true; Init conf1 true false; Init conf1 true true; Init tcp_only true true].
  Example attempts1 : attempts (run (fresh_process env1) hist1) = [(conf1, h1); (conf1, h1)]
    /\ inits (run (fresh_process env1) hist1) = [(conf1, h1)] /\ contexts (run (fresh_process env1) hist1) = 2.
  Proof. vm_compute. auto. Qed.
  Example flags1 : by_flags conf1 (lit "TLS") (lit "ib,tcp,cuda_copy,cuda_ipc") /\ by_flags conf1 (lit "SOCKADDR_TLS_PRIORITY") (lit "rdmacm").
  Proof.
    split; [apply (flags_transports conf1); right; left; reflexivity|apply (flags_priority conf1); right; left; reflexivity].
  Qed.
  Example external1 : last_entry (variable (lit "NET_DEVICES")) (h_process h1) (lit "ib0").
  Proof. apply var_get. reflexivity. Qed.
  Example sees1 : last_entry (variable (lit "LOG_LEVEL")) (h_python h1) (lit "info").
  Proof. apply var_get. reflexivity. Qed.
  Example needs1 : needs_cuda conf1 env1 /\ ~ needs_cuda tcp_only env1.
  Proof.
    split; [apply wants_cuda_spec; reflexivity|]. intros H. apply wants_cuda_spec in H. discriminate.
  Qed.
End Demo.

Print Assumptions C72_environment_wins_partial.
Print Assumptions C72_nothing_is_invented.
Print Assumptions C72_only_the_environment_counts.
Print Assumptions C72_python_sees.
Print Assumptions C72_python_sees_others.
Print Assumptions C72_environment_restored.
Print Assumptions C72_initialised_once.
Print Assumptions C72_first_settings_stay.
Print Assumptions C72_reset.
Print Assumptions C72_failure_is_retried.
Print Assumptions C72_cuda_context.
Print Assumptions C72_settings_take_effect_refuted.
Print Assumptions C72_entries_take_effect_refuted.
