(** Lemmas about the configuration: an invariant linking the two tables with the
    pools that the history added, removed and moved. *)
From Coq Require Import List Bool Arith ZArith String Lia.
From Verif Require Import Dict ConfigModel.
Import ListNotations.

(** What the history of updates means, without any table: which pools exist,
    with which label, internal address and external addresses. *)
Definition world := nat -> option pconf.
Definition upd (w : world) (i : nat) (p : option pconf) : world :=
  fun j => if Nat.eqb j i then p else w j.
Definition spec_op (w : world) (o : op) : world :=
  match o with
  | Add i l n e => upd w i (Some {| c_label := l; c_internal := n; c_external := e |})
  | Remove i => upd w i None
  | Reset i a r =>
      match w i with
      | None => w
      | Some p => upd w i (Some {| c_label := c_label p; c_internal := c_internal p; c_external := a :: r |})
      end
  end.
Definition owns (w : world) (i : nat) (a : addr) : Prop :=
  exists p, w i = Some p /\ In a (c_external p).

(** Legal updates: see ConfigProps. *)
Definition legal_op (w : world) (o : op) : Prop :=
  match o with
  | Add i l n e => w i = None /\ e <> [] /\ forall a j, In a e -> ~ owns w j a
  | Remove i => exists p a, w i = Some p /\ c_external p = [a]
  | Reset i a r =>
      (exists p, w i = Some p /\ forall x, c_internal p = Some x -> ~ In x (c_external p)) /\
      forall x j, In x (a :: r) -> j <> i -> ~ owns w j x
  end.
Fixpoint legal (w : world) (os : list op) : Prop :=
  match os with
  | [] => True
  | o :: os' => legal_op w o /\ legal (spec_op w o) os'
  end.
Definition nobody : world := fun _ => None.
Definition after (os : list op) : world := fold_left spec_op os nobody.

Record Inv (c : config) (w : world) : Prop := {
  v_nd : NoDup (gkeys (pools c));
  v_pools : forall i, gget Nat.eqb (pools c) i = w i;
  v_ne : forall i p, w i = Some p -> c_external p <> [];
  v_dis : forall i j a, owns w i a -> owns w j a -> i = j;
  v_map : forall a v, gget String.eqb (mapping c) a = Some v <->
            exists i p, w i = Some p /\ In a (c_external p) /\ v = c_internal p
}.

Lemma gget_map_all : forall l m i a,
  gget String.eqb (map_all m l i) a =
  if existsb (String.eqb a) l then Some i else gget String.eqb m a.
Proof.
  unfold map_all. induction l as [|x l IH]; simpl; intros m i a; auto.
  rewrite IH, (gget_gset _ String.eqb_spec). rewrite (String.eqb_sym a x).
  destruct (String.eqb x a), (existsb (String.eqb a) l); auto.
Qed.

Lemma existsb_In : forall a l, existsb (String.eqb a) l = true <-> In a l.
Proof.
  intros. rewrite existsb_exists. split.
  - intros [x [H E]]. apply String.eqb_eq in E. now subst.
  - intros H. exists a. split; auto. apply String.eqb_refl.
Qed.
Lemma existsb_nIn : forall a l, existsb (String.eqb a) l = false <-> ~ In a l.
Proof.
  intros. rewrite <- existsb_In. destruct (existsb _ l); intuition congruence.
Qed.

Lemma reset_loop_spec : forall new0 old internal m,
  (forall x, internal = Some x -> ~ In x old) ->
  fst (reset_loop new0 internal m old) = internal /\
  forall a, gget String.eqb (snd (reset_loop new0 internal m old)) a =
    if existsb (String.eqb a) old then None else gget String.eqb m a.
Proof.
  induction old as [|b old IH]; simpl; intros internal m H; auto.
  assert (E : oeqb internal (Some b) = false).
  { destruct internal as [x|]; simpl; auto. destruct (String.eqb_spec x b); auto.
    subst. exfalso. apply (H b); auto. }
  rewrite E. destruct (IH internal (gdel String.eqb m b)) as [A B].
  { intros x Hx Hi. apply (H x Hx). auto. }
  split; auto. intros a. rewrite B, (gget_gdel _ String.eqb_spec), (String.eqb_sym a b).
  destruct (existsb (String.eqb a) old), (String.eqb b a); auto.
Qed.

Lemma upd_eq : forall w i p, upd w i p i = p.
Proof. intros. unfold upd. now rewrite Nat.eqb_refl. Qed.
Lemma upd_neq : forall w i j p, j <> i -> upd w i p j = w j.
Proof. intros. unfold upd. destruct (Nat.eqb_spec j i); congruence. Qed.

Lemma inv_empty : Inv empty nobody.
Proof.
  constructor; simpl; unfold nobody; try discriminate; auto.
  - constructor.
  - intros i j a [p [H _]]. discriminate.
  - intros a v. split; [discriminate|]. intros [i [p [H _]]]. discriminate.
Qed.

Lemma inv_step : forall c w o, Inv c w -> legal_op w o -> Inv (apply c o) (spec_op w o).
Proof.
  intros c w o [ND PO NE DI MA] L. destruct o as [i l n e|i|i a r]; simpl in *.
  - (* Add *)
    destruct L as [L1 [L2 L3]].
    constructor; simpl.
    + apply (NoDup_gset _ Nat.eqb_spec); auto.
    + intros j. rewrite (gget_gset _ Nat.eqb_spec). unfold upd. rewrite (Nat.eqb_sym j i).
      destruct (Nat.eqb i j); auto.
    + intros j p. unfold upd. destruct (Nat.eqb j i); [intros E; inversion E; simpl; auto|apply NE].
    + intros j k x [p [Hp Ip]] [q [Hq Iq]]. unfold upd in *.
      destruct (Nat.eqb_spec j i), (Nat.eqb_spec k i); subst; auto.
      * inversion Hp; subst; simpl in *. exfalso. apply (L3 x k Ip). exists q; auto.
      * inversion Hq; subst; simpl in *. exfalso. apply (L3 x j Iq). exists p; auto.
      * apply (DI j k x); [exists p|exists q]; auto.
    + intros x v. rewrite gget_map_all. destruct (existsb (String.eqb x) e) eqn:E.
      * apply existsb_In in E. split.
        -- intros H. inversion H; subst. eexists i, _. rewrite upd_eq. split; [reflexivity|]. auto.
        -- intros [j [p [Hj [Ij V]]]]. unfold upd in Hj. destruct (Nat.eqb_spec j i).
           ++ inversion Hj; subst. reflexivity.
           ++ exfalso. apply (L3 x j E). exists p; auto.
      * apply existsb_nIn in E. rewrite MA. split; intros [j [p [Hj [Ij V]]]].
        -- exists j, p. unfold upd. destruct (Nat.eqb_spec j i); subst; [congruence|auto].
        -- unfold upd in Hj. destruct (Nat.eqb_spec j i); [inversion Hj; subst; simpl in *; tauto|].
           exists j, p; auto.
  - (* Remove *)
    destruct L as [p [a [L1 L2]]].
    unfold remove_pool_config, get_external_address, pget, bind. rewrite PO, L1, L2.
    assert (Ma : gget String.eqb (mapping c) a = Some (c_internal p)).
    { apply MA. exists i, p. rewrite L2. simpl; auto. }
    rewrite Ma. constructor; simpl.
    + apply (NoDup_gdel _ Nat.eqb_spec); auto.
    + intros j. rewrite (gget_gdel _ Nat.eqb_spec). unfold upd. rewrite (Nat.eqb_sym j i).
      destruct (Nat.eqb i j); auto.
    + intros j q. unfold upd. destruct (Nat.eqb j i); [discriminate|apply NE].
    + intros j k x [q [Hp Ip]] [q' [Hq Iq]]. unfold upd in *.
      destruct (Nat.eqb_spec j i), (Nat.eqb_spec k i); subst; auto; try discriminate.
      apply (DI j k x); [exists q|exists q']; auto.
    + intros x v. rewrite (gget_gdel _ String.eqb_spec). destruct (String.eqb_spec a x).
      * subst. split; [discriminate|]. intros [j [q [Hj [Ij V]]]]. unfold upd in Hj.
        destruct (Nat.eqb_spec j i); [discriminate|]. exfalso. apply n. apply (DI j i x).
        -- exists q; auto.
        -- exists p. rewrite L2. simpl; auto.
      * rewrite MA. split; intros [j [q [Hj [Ij V]]]].
        -- exists j, q. unfold upd. destruct (Nat.eqb_spec j i); auto.
           subst. rewrite L1 in Hj. inversion Hj; subst. rewrite L2 in Ij. simpl in Ij. destruct Ij; [congruence|tauto].
        -- unfold upd in Hj. destruct (Nat.eqb_spec j i); [discriminate|]. exists j, q; auto.
  - (* Reset *)
    destruct L as [[p [L1 L2]] L3].
    unfold reset_pool_external_address, pget. rewrite PO, L1.
    destruct (reset_loop_spec a (c_external p) (c_internal p) (mapping c) L2) as [R1 R2].
    destruct (reset_loop a (c_internal p) (mapping c) (c_external p)) as [int m] eqn:RL.
    cbn [fst snd] in R1, R2. subst int. cbn [fst].
    set (p' := {| c_label := c_label p; c_internal := c_internal p; c_external := a :: r |}).
    constructor; cbn [pools mapping].
    + apply (NoDup_gset _ Nat.eqb_spec); auto.
    + intros j. rewrite (gget_gset _ Nat.eqb_spec). unfold upd. rewrite (Nat.eqb_sym j i).
      destruct (Nat.eqb i j); auto.
    + intros j q. unfold upd. destruct (Nat.eqb j i); [|apply NE].
      intros E. inversion E. subst. discriminate.
    + intros j k x [q [Hp Ip]] [q' [Hq Iq]]. unfold upd in *.
      destruct (Nat.eqb_spec j i), (Nat.eqb_spec k i); subst; auto.
      * inversion Hp; subst. exfalso. apply (L3 x k); auto. exists q'; auto.
      * inversion Hq; subst. exfalso. apply (L3 x j); auto. exists q; auto.
      * apply (DI j k x); [exists q|exists q']; auto.
    + intros x v. rewrite gget_map_all. destruct (existsb (String.eqb x) (a :: r)) eqn:E.
      * apply existsb_In in E. split.
        -- intros H. inversion H; subst. exists i, p'. rewrite upd_eq. auto.
        -- intros [j [q [Hj [Ij V]]]]. unfold upd in Hj. destruct (Nat.eqb_spec j i).
           ++ inversion Hj; subst. reflexivity.
           ++ exfalso. apply (L3 x j); auto. exists q; auto.
      * apply existsb_nIn in E. rewrite R2. destruct (existsb (String.eqb x) (c_external p)) eqn:F.
        -- apply existsb_In in F. split; [discriminate|]. intros [j [q [Hj [Ij V]]]]. unfold upd in Hj.
           destruct (Nat.eqb_spec j i); [inversion Hj; subst q; contradiction|].
           exfalso. apply n. apply (DI j i x); [exists q|exists p]; auto.
        -- apply existsb_nIn in F. rewrite MA. split; intros [j [q [Hj [Ij V]]]].
           ++ exists j, q. unfold upd. destruct (Nat.eqb_spec j i); subst; auto.
              exfalso. apply F. congruence.
           ++ unfold upd in Hj. destruct (Nat.eqb_spec j i); [inversion Hj; subst q; contradiction|].
              exists j, q; auto.
Qed.

Lemma inv_run : forall os c w, Inv c w -> legal w os ->
  Inv (fold_left apply os c) (fold_left spec_op os w).
Proof.
  induction os as [|o os IH]; simpl; intros c w I L; auto.
  destruct L as [L1 L2]. apply IH; auto. now apply inv_step.
Qed.

Lemma reach : forall os, legal nobody os -> Inv (run os) (after os).
Proof. intros. apply inv_run; auto. apply inv_empty. Qed.

Lemma find_owner_spec : forall ps a i,
  find_owner ps a = Ok i -> exists p, In (i, p) ps /\ In a (c_external p).
Proof.
  induction ps as [|[j p] ps IH]; simpl; intros a i H; [discriminate|].
  destruct (existsb (String.eqb a) (c_external p)) eqn:E.
  - inversion H; subst. apply existsb_In in E. eauto.
  - destruct (IH a i H) as [q [A B]]. eauto.
Qed.
Lemma find_owner_err : forall ps a e,
  find_owner ps a = Err e -> e = ValueError /\ forall i p, In (i, p) ps -> ~ In a (c_external p).
Proof.
  induction ps as [|[j p] ps IH]; simpl; intros a e H.
  - inversion H. split; auto.
  - destruct (existsb (String.eqb a) (c_external p)) eqn:E; [discriminate|].
    destruct (IH a e H) as [A B]. split; auto. intros i q [Q|Q]; [|eauto].
    inversion Q; subst. now apply existsb_nIn.
Qed.

(** [get_external_addresses] when no entry is empty. *)
Definition wanted (label : option string) (p : pconf) : bool :=
  match label with None => true | Some _ => oeqb label (c_label p) end.
Definition first_ext (p : pconf) : addr := hd ""%string (c_external p).
Definition listed (ps : list (nat * pconf)) (label : option string) : list addr :=
  map (fun e => first_ext (snd e)) (filter (fun e => wanted label (snd e)) ps).

Lemma ext_addrs_ok : forall ps label,
  (forall i p, In (i, p) ps -> c_external p <> []) -> ext_addrs ps label = Ok (listed ps label).
Proof.
  unfold listed. induction ps as [|[i p] ps IH]; simpl; intros label H; auto.
  fold (wanted label p). assert (IH' : ext_addrs ps label = Ok (map (fun e => first_ext (snd e)) (filter (fun e => wanted label (snd e)) ps))).
  { apply IH. intros. eapply H; eauto. }
  destruct (wanted label p) eqn:W; auto.
  destruct (c_external p) as [|a r] eqn:E; [exfalso; eapply H; eauto|].
  rewrite IH'. simpl. unfold first_ext at 2. now rewrite E.
Qed.

Lemma oeqb_eq : forall a b, oeqb a b = true <-> a = b.
Proof.
  destruct a, b; simpl; split; try discriminate; auto.
  - intros H. apply String.eqb_eq in H. congruence.
  - intros H. inversion H. apply String.eqb_refl.
Qed.

Lemma NoDup_listed : forall ps label, NoDup (map fst ps) ->
  (forall i p, In (i, p) ps -> c_external p <> []) ->
  (forall i p j q a, In (i, p) ps -> In (j, q) ps -> In a (c_external p) -> In a (c_external q) -> i = j) ->
  NoDup (listed ps label).
Proof.
  unfold listed. induction ps as [|[i p] ps IH]; simpl; intros label ND NE DI.
  - constructor.
  - inversion ND as [|? ? N1 N2]; subst.
    assert (IH' : NoDup (map (fun e => first_ext (snd e)) (filter (fun e => wanted label (snd e)) ps))).
    { apply IH; auto. 
      - intros. eapply NE; eauto.
      - intros. eapply DI; eauto. }
    destruct (wanted label p); simpl; auto. constructor; auto.
    rewrite in_map_iff. intros [[j q] [E F]]. apply filter_In in F. destruct F as [F _]. simpl in E.
    apply N1. assert (i = j); [|subst; apply (in_map fst) in F; exact F].
    assert (Hp : c_external p <> []) by (eapply NE; eauto).
    assert (Hq : c_external q <> []) by (eapply NE; eauto).
    apply (DI i p j q (first_ext p)); auto.
    + unfold first_ext. destruct (c_external p); [congruence|simpl; auto].
    + rewrite <- E. unfold first_ext. destruct (c_external q); [congruence|simpl; auto].
Qed.

(** Lookups in lists. *)
Lemma choice_In : forall A r (l : list A) a, choice r l = Ok a -> In a l.
Proof.
  unfold choice. intros A r l a H. destruct (nth_error l _) eqn:E; inversion H; subst.
  eapply nth_error_In; eauto.
Qed.
Lemma choice_err : forall A r (l : list A) e, choice r l = Err e -> e = IndexError /\ l = [].
Proof.
  unfold choice. intros A r l e H. destruct (nth_error l _) eqn:E; inversion H; subst.
  split; auto. apply nth_error_None in E. destruct l; auto. exfalso.
  assert (r mod List.length (a :: l) < List.length (a :: l)) by (apply Nat.mod_upper_bound; simpl; lia). lia.
Qed.
Lemma choice_all : forall A (l : list A) a, In a l -> exists r, choice r l = Ok a.
Proof.
  intros A l a H. apply In_nth_error in H. destruct H as [n H]. exists n. unfold choice.
  assert (n < List.length l) by (apply nth_error_Some; congruence).
  rewrite Nat.mod_small; auto. now rewrite H.
Qed.

Lemma first_idle_ok : forall al l m as_ a, first_idle al l m as_ = Ok a ->
  In a as_ /\ existsb (fun s => same_idle s l m) (al a) = false.
Proof.
  induction as_ as [|b as_ IH]; simpl; intros a H; [discriminate|].
  destruct (existsb _ (al b)) eqn:E.
  - destruct (IH a H). auto.
  - inversion H; subst. auto.
Qed.
Lemma first_idle_err : forall al l m as_ e, first_idle al l m as_ = Err e ->
  e = NoIdleSlot /\ forall a, In a as_ -> existsb (fun s => same_idle s l m) (al a) = true.
Proof.
  induction as_ as [|b as_ IH]; simpl; intros e H.
  - inversion H. split; auto.
  - destruct (existsb _ (al b)) eqn:E; [|discriminate].
    destruct (IH e H) as [A B]. split; auto. intros a [X|X]; subst; auto.
Qed.
Lemma same_idle_eq : forall s l m, same_idle s l m = true <-> s = IdleLabel l m.
Proof.
  intros. destruct s; simpl; split; try discriminate; intros H.
  - apply andb_true_iff in H. destruct H as [A B]. apply oeqb_eq in A. apply String.eqb_eq in B. congruence.
  - inversion H; subst. apply andb_true_iff. split; [now apply oeqb_eq|apply String.eqb_refl].
Qed.

(** The table of pools alone needs no restriction on histories except that a
    pool has an external address. *)
Definition addressed (o : op) : Prop := match o with Add _ _ _ e => e <> [] | _ => True end.

Record InvP (c : config) (w : world) : Prop := {
  p_nd : NoDup (gkeys (pools c));
  p_pools : forall i, gget Nat.eqb (pools c) i = w i;
  p_ne : forall i p, w i = Some p -> c_external p <> []
}.

Lemma invp_step : forall c w o, InvP c w -> addressed o -> InvP (apply c o) (spec_op w o).
Proof.
  intros c w o [ND PO NE] A. destruct o as [i l n e|i|i a r]; simpl in *.
  - constructor; simpl.
    + apply (NoDup_gset _ Nat.eqb_spec); auto.
    + intros j. rewrite (gget_gset _ Nat.eqb_spec). unfold upd. rewrite (Nat.eqb_sym j i).
      destruct (Nat.eqb i j); auto.
    + intros j p. unfold upd. destruct (Nat.eqb j i); [intros E; inversion E; simpl; auto|apply NE].
  - assert (G : InvP {| pools := gdel Nat.eqb (pools c) i; mapping := mapping c |} (upd w i None)).
    { constructor; simpl.
      + apply (NoDup_gdel _ Nat.eqb_spec); auto.
      + intros j. rewrite (gget_gdel _ Nat.eqb_spec). unfold upd. rewrite (Nat.eqb_sym j i).
        destruct (Nat.eqb i j); auto.
      + intros j q. unfold upd. destruct (Nat.eqb j i); [discriminate|apply NE]. }
    unfold remove_pool_config, get_external_address, pget, bind. rewrite PO.
    destruct (w i) as [p|] eqn:W.
    + destruct (c_external p) as [|a r] eqn:X; [exfalso; eapply NE; eauto|].
      destruct (gget String.eqb (mapping c) a); simpl; auto.
      destruct G as [G1 G2 G3]. constructor; auto.
    + simpl. constructor; auto.
      * intros j. rewrite PO. unfold upd. destruct (Nat.eqb_spec j i); subst; auto.
      * intros j q. unfold upd. destruct (Nat.eqb j i); [discriminate|apply NE].
  - unfold reset_pool_external_address, pget. rewrite PO. destruct (w i) as [p|] eqn:W.
    + destruct (reset_loop _ _ _ _). simpl. constructor; simpl.
      * apply (NoDup_gset _ Nat.eqb_spec); auto.
      * intros j. rewrite (gget_gset _ Nat.eqb_spec). unfold upd. rewrite (Nat.eqb_sym j i).
        destruct (Nat.eqb i j); auto.
      * intros j q. unfold upd. destruct (Nat.eqb j i); [|apply NE].
        intros E. inversion E. subst. discriminate.
    + simpl. constructor; auto.
Qed.

Lemma invp_run : forall os c w, InvP c w -> Forall addressed os ->
  InvP (fold_left apply os c) (fold_left spec_op os w).
Proof.
  induction os as [|o os IH]; simpl; intros c w I L; auto.
  inversion L; subst. apply IH; auto. now apply invp_step.
Qed.

Lemma invp_empty : InvP empty nobody.
Proof. constructor; simpl; unfold nobody; try discriminate; auto. constructor. Qed.

Lemma reachp : forall os, Forall addressed os -> InvP (run os) (after os).
Proof. intros. apply invp_run; auto. apply invp_empty. Qed.

Lemma listed_In : forall os, Forall addressed os -> forall label a,
  In a (listed (pools (run os)) label) <-> exists i p r, after os i = Some p /\ c_external p = a :: r /\
                       (label = None \/ label = c_label p).
Proof.
  intros os L label a. destruct (reachp os L) as [ND PO NE]. 
  assert (NE' : forall i p, In (i, p) (pools (run os)) -> c_external p <> []).
  { intros i p H. apply (NE i). rewrite <- PO. apply (gIn_get _ Nat.eqb_spec); auto. }
  unfold listed. rewrite in_map_iff. split.
  + intros [[i p] [E F]]. apply filter_In in F. destruct F as [F W]. simpl in *.
    exists i, p, (tl (c_external p)). split.
    { rewrite <- PO. apply (gIn_get _ Nat.eqb_spec); auto. }
    split.
    { unfold first_ext in E. specialize (NE' i p F). destruct (c_external p); simpl in *; congruence. }
    destruct label; auto. right. simpl in W. now apply oeqb_eq.
  + intros [i [p [r [A [B C]]]]]. exists (i, p). simpl. split.
    { unfold first_ext. now rewrite B. }
    apply filter_In. split.
    { apply (gget_In _ Nat.eqb_spec). now rewrite PO. }
    simpl. destruct label; auto. simpl. destruct C as [C|C]; [discriminate|].
    change (oeqb (Some s) (c_label p) = true). now apply oeqb_eq.
Qed.

Lemma listed_ok : forall os, Forall addressed os -> forall label,
  get_external_addresses (run os) label = Ok (listed (pools (run os)) label).
Proof.
  intros os L label. destruct (reachp os L) as [ND PO NE]. apply ext_addrs_ok.
  intros i p H. apply (NE i). rewrite <- PO. apply (gIn_get _ Nat.eqb_spec); auto.
Qed.

Lemma legal_addressed : forall os w, legal w os -> Forall addressed os.
Proof.
  induction os as [|o os IH]; simpl; intros w L; constructor.
  - destruct L as [L _]. destruct o; simpl in *; tauto.
  - eapply IH. apply L.
Qed.
