(** C18 (proxies) and C19 (client cache). *)
From Coq Require Import List Bool Arith String Ascii Lia.
From Verif Require Import Dict RouterModel.
Import ListNotations.
Open Scope string_scope.
Open Scope list_scope.

(** ** C18: specification *)

(** An entry of the proxy table for [pattern] that applies to address [a]. *)
Definition entry (c : rconf) (pattern a p : addr) : Prop :=
  lookup (r_proxy c) pattern = Some p /\ p <> "" /\ p <> a.

(** The hops from an address, up to an address without proxy. *)
Inductive chain (c : rconf) : addr -> list addr -> Prop :=
  | chain_end : forall a, get_proxy c a = None -> chain c a []
  | chain_hop : forall a p l, get_proxy c a = Some p -> chain c p l -> chain c a (p :: l).

(** [leads c a b]: b is reached from a by one or more hops. *)
Inductive leads (c : rconf) : addr -> addr -> Prop :=
  | leads_one : forall a b, get_proxy c a = Some b -> leads c a b
  | leads_more : forall a b d, get_proxy c a = Some b -> leads c b d -> leads c a d.
Definition no_loop (c : rconf) (a : addr) : Prop :=
  forall x, x = a \/ leads c a x -> ~ leads c x x.

Lemma usable_spec : forall from x a, usable from x = Some a <-> x = Some a /\ a <> "" /\ a <> from.
Proof.
  intros from x a. unfold usable. destruct x as [y|].
  - destruct (String.eqb_spec y ""), (String.eqb_spec y from); simpl; split; try discriminate;
      intros H; try (decompose [and] H; congruence).
    inversion H; subst. auto.
  - split; [discriminate|]. intros [H _]. discriminate.
Qed.
Lemma usable_none : forall from x, usable from x = None -> forall a, ~ (x = Some a /\ a <> "" /\ a <> from).
Proof. intros from x H a Q. apply usable_spec in Q. congruence. Qed.

(** The host of an address is what precedes its first colon. *)
Lemma host_spec : forall h rest, (forall n, String.get n h <> Some ":"%char) ->
  host (String.append h (String ":" rest)) = h.
Proof.
  induction h as [|c h IH]; simpl; intros rest H; auto.
  destruct (Ascii.eqb_spec c ":").
  - exfalso. apply (H 0). simpl. congruence.
  - f_equal. apply IH. intros n0 Q. apply (H (S n0)). exact Q.
Qed.

(** The proxy of an address: the entry for the address itself, else the one for
    its host, else the wildcard; never the address itself. *)
Theorem C18_precedence : forall c a p, get_proxy c a = Some p <->
  entry c a a p \/
  ((forall q, ~ entry c a a q) /\ entry c (host a) a p) \/
  ((forall q, ~ entry c a a q) /\ (forall q, ~ entry c (host a) a q) /\ entry c "*" a p).
Proof.
  intros c a p. unfold get_proxy, entry.
  destruct (usable a (lookup (r_proxy c) a)) as [x|] eqn:E1.
  - apply usable_spec in E1. split.
    + intros H. inversion H; subst. auto.
    + intros [H|[[H _]|[H _]]]; [|exfalso; apply (H x); tauto|exfalso; apply (H x); tauto].
      destruct E1 as [E1 _], H as [H _]. congruence.
  - pose proof (usable_none _ _ E1) as N1.
    destruct (usable a (lookup (r_proxy c) (host a))) as [x|] eqn:E2.
    + apply usable_spec in E2. split.
      * intros H. inversion H; subst. auto.
      * intros [H|[[_ H]|[_ [H _]]]]; [exfalso; apply (N1 p); tauto| |exfalso; apply (H x); tauto].
        destruct E2 as [E2 _], H as [H _]. congruence.
    + pose proof (usable_none _ _ E2) as N2. rewrite usable_spec. split.
      * intros H. right. right. auto.
      * intros [H|[[_ H]|[_ [_ H]]]]; auto; exfalso; [apply (N1 p)|apply (N2 p)]; tauto.
Qed.

Theorem C18_never_itself : forall c a, get_proxy c a <> Some a.
Proof.
  intros c a H. apply C18_precedence in H. unfold entry in H. intuition.
Qed.

Lemma chain_det : forall c a l, chain c a l -> forall l', chain c a l' -> l = l'.
Proof.
  induction 1; intros l' H'; inversion H'; subst; auto; try congruence.
  rewrite H in H1. inversion H1; subst. f_equal. auto.
Qed.

Lemma loop_sound : forall fuel c a acc r, get_proxies_loop fuel c a acc = Some r ->
  exists l, chain c a l /\ r = match acc ++ l with [] => None | x => Some x end.
Proof.
  induction fuel as [|f IH]; simpl; intros c a acc r H; [discriminate|].
  destruct (get_proxy c a) as [p|] eqn:E.
  - assert (H' : get_proxies_loop f c p (acc ++ [p]) = Some r) by (destruct acc; exact H).
    apply IH in H'. destruct H' as [l [A B]]. exists (p :: l). split; [econstructor; eauto|].
    rewrite B, <- app_assoc. reflexivity.
  - exists []. split; [now constructor|]. rewrite app_nil_r. destruct acc; inversion H; auto.
Qed.

Lemma loop_complete : forall c a l, chain c a l -> forall acc fuel, fuel > List.length l ->
  get_proxies_loop fuel c a acc = Some (match acc ++ l with [] => None | x => Some x end).
Proof.
  induction 1 as [a E|a p l E C IH]; intros acc fuel F; (destruct fuel as [|f]; [simpl in F; lia|]); simpl; rewrite E.
  - rewrite app_nil_r. destruct acc; auto.
  - assert (Q : get_proxies_loop f c p (acc ++ [p]) = Some (match acc ++ p :: l with [] => None | x => Some x end)).
    { rewrite IH; [|simpl in F; lia]. now rewrite <- app_assoc. }
    destruct acc; exact Q.
Qed.

(** If the call returns, it returns the chain of proxies (None if there is no
    proxy at all), and it returns as soon as there is such a chain. *)
Theorem C18_chain : forall c a r,
  (exists fuel, get_proxies fuel c a = Some r) <->
  exists l, chain c a l /\ r = match l with [] => None | _ => Some l end.
Proof.
  intros c a r. split.
  - intros [fuel H]. apply loop_sound in H. destruct H as [l [A B]]. exists l. split; auto.
    destruct l; auto.
  - intros [l [A B]]. exists (S (List.length l)). unfold get_proxies.
    rewrite (loop_complete c a l A); [|lia]. subst. destruct l; auto.
Qed.

Lemma leads_trans : forall c a b, leads c a b -> forall d, leads c b d -> leads c a d.
Proof. induction 1; intros; eapply leads_more; eauto. Qed.
Lemma leads_snoc : forall c a b d, a = b \/ leads c a b -> get_proxy c b = Some d -> leads c a d.
Proof.
  intros c a b d [E|E] H; subst; [now constructor|]. eapply leads_trans; eauto. now constructor.
Qed.

Lemma proxy_value : forall c a p, get_proxy c a = Some p -> In p (map snd (r_proxy c)).
Proof.
  intros c a p H. apply C18_precedence in H. unfold entry, lookup in H.
  assert (V : exists k, gget String.eqb (r_proxy c) k = Some p) by (destruct H as [H|[[_ H]|[_ [_ H]]]]; destruct H; eauto).
  destruct V as [k V]. apply (gget_In _ String.eqb_spec) in V. apply (in_map snd) in V. exact V.
Qed.

Lemma chain_exists : forall c n visited a, NoDup visited ->
  incl visited (map snd (r_proxy c)) ->
  List.length (r_proxy c) - List.length visited <= n ->
  (forall v, In v visited -> v = a \/ leads c v a) ->
  no_loop c a ->
  exists l, chain c a l /\ List.length l <= n.
Proof.
  induction n as [|n IH]; intros visited a ND IN LE V NL.
  - destruct (get_proxy c a) as [p|] eqn:E; [|exists []; split; [now constructor|auto]].
    exfalso.
    assert (IV : In p visited).
    { destruct (in_dec string_dec p visited) as [Y|N]; auto. exfalso.
      assert (ND' : NoDup (p :: visited)) by (constructor; auto).
      assert (IN' : incl (p :: visited) (map snd (r_proxy c))).
      { intros x [Q|Q]; [subst; eapply proxy_value; eauto|auto]. }
      pose proof (NoDup_incl_length ND' IN') as L. rewrite map_length in L. simpl in L. lia. }
    destruct (V p IV) as [Q|Q].
    + subst. exact (C18_never_itself c a E).
    + apply (NL a); auto. eapply leads_more; eauto.
  - destruct (get_proxy c a) as [p|] eqn:E; [|exists []; split; [now constructor|simpl; lia]].
    assert (NV : ~ In p visited).
    { intros IV. destruct (V p IV) as [Q|Q].
      - subst. exact (C18_never_itself c a E).
      - apply (NL a); auto. eapply leads_more; eauto. }
    destruct (IH (p :: visited) p) as [l [A B]].
    + now constructor.
    + intros x [Q|Q]; [subst; eapply proxy_value; eauto|auto].
    + simpl. lia.
    + intros v [Q|Q]; [auto|]. right. eapply leads_snoc; eauto.
    + intros x H. apply NL. right. destruct H as [H|H]; [subst; now constructor|eapply leads_more; eauto].
    + exists (p :: l). split; [econstructor; eauto|simpl; lia].
Qed.

(** The call returns exactly when no loop of hops is reached from the address;
    it then makes at most as many hops as the table has entries. *)
Theorem C18_terminates_iff_partial : forall c a,
  (exists fuel r, get_proxies fuel c a = Some r) <-> no_loop c a.
Proof.
  intros c a. split.
  - intros [fuel [r H]]. apply loop_sound in H. destruct H as [l [C _]].
    intros x HX.
    assert (CX : exists l', chain c x l').
    { destruct HX as [HX|HX]; [subst; eauto|]. clear - C HX. revert l C.
      induction HX; intros l C; inversion C; subst; try congruence.
      - rewrite H in H0. inversion H0; subst. eauto.
      - rewrite H in H0. inversion H0; subst. eauto. }
    destruct CX as [l' CX]. intros L.
    assert (G : forall n, exists l'', chain c x l'' /\ n <= List.length l'').
    { induction n as [|n [l'' [A B]]]; [exists l'; split; auto; lia|].
      assert (Q : forall y z, leads c y z -> forall m, chain c z m -> exists m', chain c y m' /\ List.length m < List.length m').
      { induction 1; intros m M.
        - exists (b :: m). split; [econstructor; eauto|simpl; lia].
        - destruct (IHleads m M) as [m' [M1 M2]]. exists (b :: m'). split; [econstructor; eauto|simpl; lia]. }
      destruct (Q x x L l'' A) as [m' [M1 M2]]. exists m'. split; auto. lia. }
    destruct (G (S (List.length l'))) as [l'' [A B]]. pose proof (chain_det _ _ _ A _ CX). subst. lia.
  - intros NL. destruct (chain_exists c (List.length (r_proxy c)) [] a) as [l [A B]]; auto.
    + constructor.
    + intros x [].
    + simpl. lia.
    + intros v [].
    + exists (S (List.length l)). eexists. unfold get_proxies. apply loop_complete; eauto.
Qed.

Theorem C18_hops_bounded : forall c a, no_loop c a ->
  exists r, get_proxies (S (List.length (r_proxy c))) c a = Some r.
Proof.
  intros c a NL. destruct (chain_exists c (List.length (r_proxy c)) [] a) as [l [A B]]; auto.
  - constructor.
  - intros x [].
  - simpl. lia.
  - intros v [].
  - eexists. unfold get_proxies. apply loop_complete; eauto. lia.
Qed.

(** Full claim: the call returns for every configuration.  It does not: *)
Definition C18_claim : Prop := forall c a, exists fuel r, get_proxies fuel c a = Some r.
Definition looped : rconf :=
  {| r_cur := []; r_local := []; r_mapping := [];
     r_proxy := [("a:1", "b:1"); ("b:1", "a:1")] |}.
Theorem C18_terminates_refuted : ~ C18_claim.
Proof.
  intros H. apply C18_terminates_iff_partial with (c := looped) (a := "a:1") in H.
  apply (H "a:1"); auto. eapply leads_more with (b := "b:1"); [reflexivity|]. now apply leads_one.
Qed.

Example demo18 :
  let c := {| r_cur := []; r_local := []; r_mapping := [];
              r_proxy := [("a", "b:1"); ("b:1", "c:7"); ("*", "d:9")] |} in
  get_proxy c "a:5" = Some "b:1" /\ get_proxies 5 c "a:5" = Some (Some ["b:1"; "c:7"; "d:9"]) /\
  get_proxies 5 c "d:9" = Some None /\ no_loop c "a:5".
Proof.
  repeat split. apply C18_terminates_iff_partial. exists 5. eexists. reflexivity.
Qed.

(** ** C19: client cache

    [step s e] performs one event and says which client, if any, a get_client
    call returns in it.  Calls are admitted by the router's lock. *)

Lemma who_eqb_spec : forall x y, reflect (x = y) (who_eqb x y).
Proof.
  destruct x as [x|], y as [y|]; simpl; try (constructor; congruence).
  destruct (Nat.eqb_spec x y); constructor; congruence.
Qed.
Lemma addrs_eqb_spec : forall x y, reflect (x = y) (addrs_eqb x y).
Proof.
  induction x as [|a x IH]; destruct y as [|b y]; simpl; try (constructor; congruence).
  destruct (String.eqb_spec a b), (IH y); simpl; constructor; congruence.
Qed.
Lemma key_eqb_spec : forall x y, reflect (x = y) (key_eqb x y).
Proof.
  intros [a b c] [a' b' c']. unfold key_eqb; simpl.
  destruct (String.eqb_spec a a'), (who_eqb_spec b b'), (addrs_eqb_spec c c'); simpl; constructor; congruence.
Qed.

(** The proxy that applies to an address, as in [C18_precedence]. *)
Definition proxy_of (c : rconf) (a p : addr) : Prop :=
  entry c a a p \/
  ((forall q, ~ entry c a a q) /\ entry c (host a) a p) \/
  ((forall q, ~ entry c a a q) /\ (forall q, ~ entry c (host a) a q) /\ entry c "*" a p).

(** The internal address of an external one: the process's own table first. *)
Definition internal (c : rconf) (ext a : addr) : Prop :=
  lookup (r_local c) ext = Some (Some a) \/
  (lookup (r_local c) ext = None /\ lookup (r_mapping c) ext = Some (Some a)).

(** Where a request for [ext] through [proxies] must be connected to: the
    internal address if there is one; else, if the way so far went through
    proxies, the next hop after the last of them, or that one itself; else the
    proxy of [ext] unless this process is that proxy; else [ext]. *)
Inductive destination (c : rconf) (ext : addr) : list addr -> addr -> Prop :=
  | d_internal : forall l a, internal c ext a -> destination c ext l a
  | d_next : forall l p a, (forall b, ~ internal c ext b) -> proxy_of c p a -> destination c ext (l ++ [p]) a
  | d_last : forall l p, (forall b, ~ internal c ext b) -> (forall q, ~ proxy_of c p q) ->
      destination c ext (l ++ [p]) p
  | d_proxy : forall p, (forall b, ~ internal c ext b) -> proxy_of c ext p ->
      hd_error (r_cur c) <> Some p -> destination c ext [] p
  | d_self : forall p, (forall b, ~ internal c ext b) -> proxy_of c ext p ->
      hd_error (r_cur c) = Some p -> destination c ext [] ext
  | d_direct : (forall b, ~ internal c ext b) -> (forall q, ~ proxy_of c ext q) -> destination c ext [] ext.

Lemma get_internal_spec : forall c ext a, get_internal_address c ext = Some a <-> internal c ext a.
Proof.
  intros c ext a. unfold get_internal_address, internal.
  destruct (lookup (r_local c) ext) as [v|]; [|destruct (lookup (r_mapping c) ext)]; split; intros H; subst; auto;
    try (destruct H as [H|[H1 H2]]; congruence); try discriminate.
Qed.

Lemma destination_unique : forall c ext l a b, destination c ext l a -> destination c ext l b -> a = b.
Proof.
  assert (IU : forall c ext a b, internal c ext a -> internal c ext b -> a = b)
    by (intros c ext a b H1 H2; apply get_internal_spec in H1, H2; congruence).
  assert (PU : forall c x a b, proxy_of c x a -> proxy_of c x b -> a = b)
    by (intros c x a b H1 H2; apply C18_precedence in H1, H2; congruence).
  Ltac clash := match goal with
    | [ N : forall b, ~ _, H : _ |- _ ] => exfalso; exact (N _ H)
    | [ E : _ ++ [_] = [] |- _ ] => exfalso; symmetry in E; revert E; apply app_cons_not_nil
    | [ E : [] = _ ++ [_] |- _ ] => exfalso; revert E; apply app_cons_not_nil
    | [ E : _ ++ [_] = _ ++ [_] |- _ ] => apply app_inj_tail in E; destruct E; subst; clash
    | _ => eauto
    end.
  intros c ext l a b A B. destruct A; inversion B; subst; clash;
    try (match goal with [ P : proxy_of _ _ ?x, Q : proxy_of _ _ ?y |- _ ] => assert (x = y) by eauto; congruence end).
Qed.

Lemma resolve_destination : forall c ext l, destination c ext l (resolve c ext l).
Proof.
  intros c ext l. unfold resolve.
  destruct (get_internal_address c ext) as [a|] eqn:G.
  { apply d_internal. now apply get_internal_spec. }
  assert (N : forall b, ~ internal c ext b) by (intros b H; apply get_internal_spec in H; congruence).
  destruct l as [|x l].
  - destruct (get_proxy c ext) as [p|] eqn:P.
    + apply C18_precedence in P. unfold oaddr_eqb, external_address.
      destruct (r_cur c) as [|y r] eqn:R.
      * apply d_proxy; auto. rewrite R. discriminate.
      * destruct (String.eqb_spec p y).
        -- eapply d_self; eauto. rewrite R. simpl. congruence.
        -- apply d_proxy; auto. rewrite R. simpl. congruence.
    + apply d_direct; auto. intros q H. apply C18_precedence in H. congruence.
  - destruct (exists_last (l := x :: l)) as [l' [p E]]; [discriminate|]. rewrite E.
    rewrite last_last. destruct (get_proxy c p) as [q|] eqn:P.
    + apply d_next; auto. now apply C18_precedence.
    + apply d_last; auto. intros q H. apply C18_precedence in H. congruence.
Qed.
Lemma resolve_iff : forall c ext l a, resolve c ext l = a <-> destination c ext l a.
Proof.
  intros. split; [intros <-; apply resolve_destination|].
  intros H. eapply destination_unique; eauto. apply resolve_destination.
Qed.

(** No configuration change while a get_client call is in progress (waiting for
    the lock or connecting): no connection is pending at a change, and later
    calls use the lock made by it. *)
Fixpoint calm (s : state) (es : list event) : Prop :=
  match es with
  | [] => True
  | e :: es' =>
      match e with
      | Request l _ _ => l = s_lock s
      | Change _ => s_pend s = []
      | _ => True
      end /\ calm (fst (step s e)) es'
  end.

Definition target (conf : rconf) (k : key) : addr := resolve conf (k_ext k) (k_proxies k).

Record Inv (s : state) : Prop := {
  i_pend : s_pend s = [] \/ exists p, s_pend s = [p] /\ p_lock p = s_lock s /\
             p_addr p = target (s_conf s) (p_key p) /\
             (p_cached p = true -> gget key_eqb (s_cache s) (p_key p) = None);
  i_cache : forall k c, gget key_eqb (s_cache s) k = Some c ->
             exists x, nth_error (s_clients s) c = Some x /\ cl_addr x = target (s_conf s) k
}.

Lemma nth_close_at : forall l i j, nth_error (close_at l i) j =
  match nth_error l j with
  | Some x => Some (if Nat.eqb i j then set_closed x else x)
  | None => None
  end.
Proof.
  induction l as [|x l IH]; destruct i, j; simpl; auto.
  - destruct (nth_error l j); auto.
Qed.

Lemma inv_step : forall s e, Inv s ->
  match e with Request l _ _ => l = s_lock s | Change _ => s_pend s = [] | _ => True end ->
  Inv (fst (step s e)).
Proof.
  intros s e [IP IC] H. destruct e as [l k cached|i ok|c|conf]; simpl.
  - subst l. destruct IP as [IP|[p [IP [PL [PA PC]]]]].
    + rewrite IP. simpl.
      assert (CN : forall cache, (cached = true -> gget key_eqb cache k = None) ->
         (forall k' c, gget key_eqb cache k' = Some c -> gget key_eqb (s_cache s) k' = Some c) ->
         Inv {| s_conf := s_conf s; s_lock := s_lock s; s_cache := cache; s_clients := s_clients s;
                s_pend := [{| p_lock := s_lock s; p_key := k; p_cached := cached;
                              p_addr := resolve (s_conf s) (k_ext k) (k_proxies k) |}] |}).
      { intros cache Q1 Q2. constructor; simpl.
        - right. eexists. split; [reflexivity|]. simpl. auto.
        - intros k' c' Hc. apply Q2 in Hc. auto. }
      destruct cached.
      * destruct (gget key_eqb (s_cache s) k) as [c|] eqn:G.
        -- destruct (is_closed (s_clients s) c); simpl.
           ++ apply CN.
              ** intros _. rewrite (gget_gdel _ key_eqb_spec). now destruct (key_eqb_spec k k).
              ** intros k' c'. rewrite (gget_gdel _ key_eqb_spec). destruct (key_eqb k k'); [discriminate|auto].
           ++ constructor; auto.
        -- simpl. apply CN; auto.
      * simpl. apply CN; auto. discriminate.
    + rewrite IP. simpl. rewrite PL, Nat.eqb_refl. simpl. constructor; auto. right. exists p. auto.
  - destruct IP as [IP|[p [IP [PL [PA PC]]]]].
    + rewrite IP. destruct i; simpl; constructor; auto.
    + rewrite IP. destruct i as [|i].
      * simpl. destruct ok; simpl; constructor; simpl; auto.
        -- intros k c. destruct (p_cached p).
           ++ rewrite (gget_gset _ key_eqb_spec). destruct (key_eqb_spec (p_key p) k).
              ** intros Q. inversion Q; subst. eexists.
                 rewrite nth_error_app2, Nat.sub_diag; [|lia]. split; [reflexivity|]. auto.
              ** intros Q. destruct (IC k c Q) as [x [X1 X2]]. exists x. split; auto.
                 rewrite nth_error_app1; auto. apply nth_error_Some. congruence.
           ++ intros Q. destruct (IC k c Q) as [x [X1 X2]]. exists x. split; auto.
              rewrite nth_error_app1; auto. apply nth_error_Some. congruence.
      * assert (Z : nth_error [p] (S i) = None) by (destruct i; reflexivity).
        rewrite Z. simpl. constructor; auto. right. exists p. auto.
  - constructor; simpl; auto. intros k c' Q. destruct (IC k c' Q) as [x [X1 X2]].
    rewrite nth_close_at, X1. eexists. split; [reflexivity|]. destruct (Nat.eqb c c'); auto.
  - constructor; simpl; auto; try discriminate.
Qed.

Lemma inv_run : forall es s, Inv s -> calm s es -> Inv (run s es).
Proof.
  induction es as [|e es IH]; simpl; intros s I C; auto.
  destruct C as [C1 C2]. apply IH; auto. apply inv_step; auto.
Qed.
Lemma inv_init : forall conf, Inv (init conf).
Proof. intros. constructor; simpl; auto. discriminate. Qed.

Lemma calm_app : forall es es' s, calm s (es ++ es') <-> calm s es /\ calm (run s es) es'.
Proof.
  induction es as [|e es IH]; simpl; intros es' s; [tauto|]. rewrite IH. unfold run. tauto.
Qed.

(** Whatever get_client returns is open at that moment and connected to the
    address that the current configuration gives for the requested destination. *)
Theorem C19_open_and_right_partial : forall conf es e k cached c,
  calm (init conf) (es ++ [e]) ->
  let s := run (init conf) es in
  let s' := fst (step s e) in
  snd (step s e) = Some (k, cached, c) ->
  exists x, nth_error (s_clients s') c = Some x /\ cl_closed x = false /\
            destination (s_conf s') (k_ext k) (k_proxies k) (cl_addr x).
Proof.
  intros conf es e k cached c C s s' H.
  cut (exists x, nth_error (s_clients s') c = Some x /\ cl_closed x = false /\
            cl_addr x = resolve (s_conf s') (k_ext k) (k_proxies k)).
  { intros [x [X1 [X2 X3]]]. exists x. repeat split; auto. rewrite X3. apply resolve_destination. }
  revert H. apply calm_app in C. destruct C as [C1 [C2 _]].
  pose proof (inv_run es _ (inv_init conf) C1) as I. fold s in I, C2.
  pose proof (inv_step s e I C2) as I'. fold s' in I'.
  destruct I as [IP IC]. subst s'.
  destruct e as [l k0 cached0|i ok|c0|conf0]; simpl; try discriminate.
  - destruct (existsb _ (s_pend s)); [discriminate|].
    destruct cached0; [|discriminate].
    destruct (gget key_eqb (s_cache s) k0) as [c1|] eqn:G; [|discriminate].
    destruct (is_closed (s_clients s) c1) eqn:CL; [discriminate|].
    intros H. inversion H; subst. simpl. destruct (IC k c G) as [x [X1 X2]].
    exists x. unfold is_closed in CL. rewrite X1 in CL. auto.
  - destruct (nth_error (s_pend s) i) as [p|] eqn:P; [|discriminate].
    destruct ok; [|discriminate]. intros H. inversion H; subst. simpl.
    eexists. rewrite nth_error_app2, Nat.sub_diag; [|lia]. split; [reflexivity|]. simpl. split; auto.
    destruct IP as [IP|[q [IP [PL [PA PC]]]]]; rewrite IP in P.
    + destruct i; discriminate.
    + destruct i as [|i]; [|destruct i; discriminate]. simpl in P. inversion P; subst. exact PA.
Qed.

(** As long as the client is open and the configuration unchanged, further
    cached requests with the same destination, owner and proxies get it again. *)
Theorem C19_same_client_partial : forall conf es e es' e' k c c',
  let s := run (init conf) es in
  calm (init conf) (es ++ e :: es' ++ [e']) ->
  snd (step s e) = Some (k, true, c) ->
  Forall (fun x => x <> Close c /\ forall cf, x <> Change cf) (es' ++ [e']) ->
  snd (step (run (init conf) (es ++ e :: es')) e') = Some (k, true, c') -> c' = c.
Proof.
  intros conf es e es' e' k c c' s C R F R'.
  replace (es ++ e :: es') with ((es ++ [e]) ++ es') in R' by (rewrite <- app_assoc; reflexivity).
  replace (es ++ e :: es' ++ [e']) with ((es ++ [e]) ++ es' ++ [e']) in C by (rewrite <- !app_assoc; reflexivity).
  pose proof C as CC. apply calm_app in CC. destruct CC as [C1 C2].
  set (s1 := run (init conf) (es ++ [e])) in *.
  assert (I1 : Inv s1) by (apply inv_run; auto; apply inv_init).
  assert (OP := C19_open_and_right_partial conf es e k true c C1 R).
  assert (S1 : s1 = fst (step s e)).
  { unfold s1, run. rewrite fold_left_app. reflexivity. }
  assert (K : gget key_eqb (s_cache s1) k = Some c /\ is_closed (s_clients s1) c = false /\
              forall p, In p (s_pend s1) -> p_cached p = true -> p_key p <> k).
  { destruct OP as [x [X1 [X2 X3]]]. fold s in X1. rewrite <- S1 in X1.
    assert (G : gget key_eqb (s_cache s1) k = Some c).
    { rewrite S1. destruct e as [l k0 cached0|i ok|c0|conf0]; simpl in *; try discriminate.
      - destruct (existsb _ (s_pend s)); [discriminate|].
        destruct cached0; [|discriminate].
        destruct (gget key_eqb (s_cache s) k0) as [c1|] eqn:G; [|discriminate].
        destruct (is_closed (s_clients s) c1) eqn:CL; [discriminate|].
        inversion R; subst. auto.
      - destruct (nth_error (s_pend s) i) as [p|] eqn:P; [|discriminate].
        destruct ok; [|discriminate]. simpl in *. inversion R as [[Q1 Q2 Q3]].
        rewrite Q2, Q1. rewrite (gget_gset _ key_eqb_spec). destruct (key_eqb_spec k k); [reflexivity|congruence]. }
    split; auto. split; [unfold is_closed; now rewrite X1|].
    intros p HP PC E. destruct I1 as [IP _]. destruct IP as [IP|[q [IP [_ [_ PN]]]]]; rewrite IP in HP.
    - contradiction.
    - destruct HP as [HP|[]]. subst q. specialize (PN PC). rewrite E in PN. congruence. }
  clear OP R S1 C C1.
  replace (run (init conf) ((es ++ [e]) ++ es')) with (run s1 es') in R'
    by (unfold s1, run; rewrite !fold_left_app; reflexivity).
  clearbody s1. revert s1 I1 C2 K R'. induction es' as [|x es' IH]; intros s1 I1 C2 K R'.
  - simpl in *. destruct C2 as [C2 _]. destruct K as [K1 [K2 K3]].
    destruct e' as [l k0 cached0|i ok|c0|conf0]; simpl in *; try discriminate.
    + destruct (existsb _ (s_pend s1)); [discriminate|].
      destruct cached0; [|discriminate].
      destruct (gget key_eqb (s_cache s1) k0) as [c1|] eqn:G; [|discriminate].
      destruct (is_closed (s_clients s1) c1) eqn:CL; [discriminate|].
      inversion R'; subst. congruence.
    + destruct (nth_error (s_pend s1) i) as [p|] eqn:P; [|discriminate].
      destruct ok; [|discriminate]. simpl in *. inversion R'; subst. exfalso.
      apply nth_error_In in P. apply (K3 p P); auto.
  - simpl in C2, F. destruct C2 as [C2 C3]. inversion F as [|? ? F1 F2]; subst.
    simpl in R'. apply (IH F2 (fst (step s1 x))); auto.
    { apply inv_step; auto. }
    clear IH R' C3 F F2. pose proof I1 as [IP IC].
    destruct K as [K1 [K2 K3]]. destruct x as [l k0 cached0|i ok|c0|conf0]; simpl.
    + destruct (existsb _ (s_pend s1)) eqn:X; [auto|].
      assert (NP : s_pend s1 = []).
      { destruct IP as [IP|[q [IP [PL _]]]]; auto. rewrite IP in X. simpl in X.
        subst l. rewrite PL, Nat.eqb_refl in X. discriminate. }
      destruct cached0.
      * destruct (gget key_eqb (s_cache s1) k0) as [c1|] eqn:G.
        -- destruct (is_closed (s_clients s1) c1) eqn:CL; simpl; auto.
           assert (D : k0 <> k) by (intros D; subst; congruence).
           rewrite (gget_gdel _ key_eqb_spec), NP. destruct (key_eqb_spec k0 k); [congruence|].
           repeat split; auto. simpl. intros p [Q|[]] _; subst; auto.
        -- simpl. assert (D : k0 <> k) by (intros D; subst; congruence).
           rewrite NP. repeat split; auto. simpl. intros p [Q|[]] _; subst; auto.
      * simpl. rewrite NP. repeat split; auto. simpl. intros p [Q|[]] Q2; subst; discriminate.
    + destruct (nth_error (s_pend s1) i) as [p|] eqn:P; [|auto].
      assert (HP : In p (s_pend s1)) by (eapply nth_error_In; eauto).
      assert (RM : forall q, In q (remove_at (s_pend s1) i) -> In q (s_pend s1)).
      { clear. generalize (s_pend s1). intros l. revert i. induction l as [|y l IH]; destruct i; simpl; auto.
        intros q [Q|Q]; eauto. }
      destruct ok; simpl.
      * split; [|split].
        -- destruct (p_cached p) eqn:PC; auto. rewrite (gget_gset _ key_eqb_spec).
           destruct (key_eqb_spec (p_key p) k); auto. exfalso. eapply K3; eauto.
        -- unfold is_closed in *. destruct (nth_error (s_clients s1) c) eqn:N; [|discriminate].
           rewrite nth_error_app1; [now rewrite N|]. apply nth_error_Some. congruence.
        -- intros q Q. apply K3. auto.
      * repeat split; auto.
    + repeat split; auto. unfold is_closed in *. rewrite nth_close_at.
      destruct (nth_error (s_clients s1) c); [|discriminate].
      destruct (Nat.eqb_spec c0 c); auto. subst. destruct F1; congruence.
    + destruct F1 as [_ F1]. exfalso. eapply F1; eauto.
Qed.

(** Full claim: also when the configuration changes during a call. *)
Definition C19_claim : Prop := forall conf es e k cached c,
  let s := run (init conf) es in
  let s' := fst (step s e) in
  snd (step s e) = Some (k, cached, c) ->
  exists x, nth_error (s_clients s') c = Some x /\ cl_closed x = false /\
            destination (s_conf s') (k_ext k) (k_proxies k) (cl_addr x).

(** A call that was connecting when the mapping changed puts its client, for the
    old address, into the new cache (router.py 172-175: self._cache is looked up
    after the await); every later call then gets the connection to the old
    address. *)
Definition conf_with (a : addr) : rconf :=
  {| r_cur := []; r_local := []; r_mapping := [("h:1", Some a)]; r_proxy := [] |}.
Definition k1 : key := {| k_ext := "h:1"; k_who := None; k_proxies := [] |}.
Theorem C19_stale_client_refuted : ~ C19_claim.
Proof.
  intros H. specialize (H (conf_with "unix:1")
    [Request 0 k1 true; Change (conf_with "unix:2"); Connected 0 true]
    (Request 1 k1 true) k1 true 0 eq_refl).
  destruct H as [x [X1 [_ X3]]]. vm_compute in X1. inversion X1; subst. apply resolve_iff in X3. vm_compute in X3. discriminate.
Qed.

Example demo19 :
  let es := [Request 0 k1 true; Connected 0 true; Request 0 k1 true; Close 0; Request 0 k1 true; Connected 0 true] in
  calm (init (conf_with "unix:1")) (es ++ [Request 0 k1 true]) /\
  snd (step (run (init (conf_with "unix:1")) (firstn 2 es)) (Request 0 k1 true)) = Some (k1, true, 0) /\
  snd (step (run (init (conf_with "unix:1")) es) (Request 0 k1 true)) = Some (k1, true, 1).
Proof. simpl. repeat split. Qed.

Print Assumptions C18_precedence.
Print Assumptions C18_never_itself.
Print Assumptions C18_chain.
Print Assumptions C18_terminates_iff_partial.
Print Assumptions C18_hops_bounded.
Print Assumptions C18_terminates_refuted.
Print Assumptions C19_open_and_right_partial.
Print Assumptions C19_same_client_partial.
Print Assumptions C19_stale_client_refuted.
