(** * C42 (equality of references) and C50 (what a reference reaches)

    How to read.  [run h] is a process after the operations [h] (pools opened and closed, actors
    created and destroyed, dead objects collected by Python).
    [obtained r a u]: [r] is a reference someone got for address [a] and uid [u], in any process
    at any time: by constructing it, by create_actor_ref (which gives a LocalActorRef when the
    actor lives in the same process), by receiving a reference that was sent, or by using it.
    [held h r a b]: [r] is a reference for address [a] and uid [b] that was obtained in this very
    process, now or at an earlier moment of [h]. *)
From Coq Require Import String Ascii.
From Coq Require Import List Bool Arith Lia.
From Verif Require Import PyStr RefModel.
Import ListNotations.
Open Scope list_scope.
Open Scope nat_scope.

(** ** Specification *)
Inductive obtained : ref -> option text -> uid -> Prop :=
| ob_new : forall a u px, obtained (ActorRef a u px) a (encode u)
| ob_create : forall h a u px, obtained (create_actor_ref (run h) a u px) a (encode u)
| ob_sent : forall h r a u, obtained r a u -> obtained (unpickle (run h) (reduce r)) a u
| ob_used : forall h r a u, obtained r a u -> obtained (snd (call (run h) r)) a u.

Inductive held : list op -> ref -> text -> text -> Prop :=
| h_new : forall h a u b px, encode u = UBytes b -> held h (ActorRef (Some a) u px) a b
| h_create : forall h a u b px, encode u = UBytes b -> held h (create_actor_ref (run h) (Some a) u px) a b
| h_later : forall h x r a b, held h r a b -> held (h ++ [x]) r a b
| h_used : forall h r a b, held h r a b -> held h (snd (call (run h) r)) a b.

(** The pool at [a] holds object [o] as its actor [b]. *)
Definition holds (p : proc) (a b : text) (o : nat) : Prop := In ((a, b), o) (actors p).
(** Object [o] was created as actor [b] at [a] and has not been garbage-collected. *)
Definition is_object (p : proc) (a b : text) (o : nat) : Prop :=
  nth_error (objs p) o = Some {| o_addr := a; o_uid := b; o_alive := true |}.

(** ** Proofs *)
Lemma key_eqb_spec k l : reflect (k = l) (key_eqb k l).
Proof.
  destruct k as (a, b), l as (c, d). unfold key_eqb. cbn [fst snd].
  destruct (text_eqb_spec a c) as [->|N]; cbn; [|constructor; congruence].
  destruct (text_eqb_spec b d) as [->|N]; constructor; congruence.
Qed.
Lemma find_In k l o : find_actor k l = Some o -> In (k, o) l.
Proof.
  induction l as [|(k', o') l IH]; cbn [find_actor]; [discriminate|].
  destruct (key_eqb_spec k k') as [->|N]; intros E; [inversion E; now left|right; auto].
Qed.
Lemma find_none k l : find_actor k l = None -> forall o, ~ In (k, o) l.
Proof.
  induction l as [|(k', o') l IH]; cbn [find_actor]; [intros _ o []|].
  destruct (key_eqb_spec k k') as [->|N]; [discriminate|]. intros E o [C|I]; [congruence|exact (IH E o I)].
Qed.

Record inv (p : proc) : Prop := {
  i_obj : forall a b o, holds p a b o -> is_object p a b o;
  i_pool : forall a b o, holds p a b o -> existsb (text_eqb a) (pools p) = true;
  i_one : forall a b o o', holds p a b o -> holds p a b o' -> o = o' }.
Lemma kill_nth o l i : nth_error (kill o l) i =
  if Nat.eqb i o then option_map (fun x => {| o_addr := o_addr x; o_uid := o_uid x; o_alive := false |}) (nth_error l i)
  else nth_error l i.
Proof.
  unfold kill. revert o i. induction l as [|x l IH]; intros [|o] i; cbn [firstn skipn app].
  - destruct i; reflexivity.
  - destruct i; [reflexivity|cbn]. now destruct (Nat.eqb i o).
  - destruct i; reflexivity.
  - destruct i; [reflexivity|]. cbn [nth_error]. rewrite IH. reflexivity.
Qed.
Lemma exec_inv p x : inv p -> inv (exec p x).
Proof.
  intros [Io Ip I1]. destruct x as [a|a|a b|a b|o]; cbn [exec].
  - destruct (existsb (text_eqb a) (pools p)) eqn:E; [split; assumption|].
    split; unfold holds, is_object in *; cbn [actors objs pools] in *; auto.
    intros c d o I. cbn [existsb]. rewrite (Ip c d o I). apply orb_true_r.
  - split; unfold holds, is_object in *; cbn [actors objs pools] in *.
    + intros c d o I. apply filter_In in I as (I & _). auto.
    + intros c d o I. apply filter_In in I as (I & N). cbn [fst] in N. specialize (Ip _ _ _ I).
      apply existsb_exists in Ip as (y & Iy & Ey). apply existsb_exists. exists y. split; auto.
      apply filter_In. split; auto. destruct (text_eqb_spec c y); [subst; exact N|discriminate].
    + intros c d o o' I J. apply filter_In in I as (I & _), J as (J & _). eauto.
  - destruct (existsb (text_eqb a) (pools p)) eqn:E; [|split; assumption].
    destruct (find_actor (a, b) (actors p)) eqn:F; [split; assumption|].
    split; unfold holds, is_object in *; cbn [actors objs pools] in *.
    + intros c d o [C|I].
      * inversion C; subst. rewrite nth_error_app2, Nat.sub_diag by lia. reflexivity.
      * rewrite nth_error_app1; auto. apply nth_error_Some. rewrite (Io _ _ _ I). discriminate.
    + intros c d o [C|I]; [inversion C; subst; exact E|eauto].
    + intros c d o o' [C|I] [D|J]; [congruence|..].
      * inversion C; subst. exfalso. eapply find_none; eauto.
      * inversion D; subst. exfalso. eapply find_none; eauto.
      * eauto.
  - split; unfold holds, is_object, remove_actor in *; cbn [actors objs pools] in *.
    + intros c d o I. apply filter_In in I as (I & _). auto.
    + intros c d o I. apply filter_In in I as (I & _). eauto.
    + intros c d o o' I J. apply filter_In in I as (I & _), J as (J & _). eauto.
  - destruct (existsb _ (actors p)) eqn:E; [split; assumption|].
    split; unfold holds, is_object in *; cbn [actors objs pools] in *; auto.
    intros c d i I. rewrite kill_nth. destruct (Nat.eqb_spec i o) as [->|N]; [|auto].
    exfalso. enough (existsb (fun e => Nat.eqb o (snd e)) (actors p) = true) by congruence.
    apply existsb_exists. exists (c, d, o). split; auto. apply Nat.eqb_refl.
Qed.
Lemma fold_inv h : forall p, inv p -> inv (fold_left exec h p).
Proof. induction h as [|x h IH]; intros p I; cbn [fold_left]; auto. apply IH, exec_inv, I. Qed.
Lemma run_inv h : inv (run h).
Proof. apply fold_inv. split; unfold holds; cbn; contradiction. Qed.
Lemma run_app h x : run (h ++ [x]) = exec (run h) x.
Proof. unfold run. now rewrite fold_left_app. Qed.

Lemma local_spec p a u o : inv p -> get_local_actor p a u = Some o ->
  exists a' b, a = Some a' /\ u = ABytes b /\ holds p a' b o /\
    nth_error (objs p) o = Some {| o_addr := a'; o_uid := b; o_alive := true |}.
Proof.
  intros I. unfold get_local_actor. destruct a as [a|]; [|discriminate]. destruct u as [t|b|n]; try discriminate.
  destruct (existsb _ (pools p)); [|discriminate]. intros F. apply find_In in F. exists a, b.
  split; [auto|split; [auto|split; [exact F|]]]. apply (i_obj _ I), F.
Qed.
Lemma create_fields p a u px : inv p -> r_addr (create_actor_ref p a u px) = a /\ r_uid (create_actor_ref p a u px) = encode u.
Proof.
  intros I. unfold create_actor_ref. destruct (get_local_actor p a u) as [o|] eqn:G; [|cbn; auto].
  destruct (local_spec _ _ _ _ I G) as (a' & b & -> & -> & _ & E). unfold LocalActorRef. rewrite E. cbn. auto.
Qed.
Lemma call_fields p r : r_addr (snd (call p r)) = r_addr r /\ r_uid (snd (call p r)) = r_uid r.
Proof. unfold call. destruct (r_kind r); cbn [snd]; auto. destruct (alive p weak); auto. destruct (match r_uid r with UBytes b => _ | UObj _ => None end); auto. Qed.
Lemma obtained_fields r a u : obtained r a u -> r_addr r = a /\ r_uid r = u.
Proof.
  induction 1 as [a u px|h a u px|h r a u _ (E1 & E2)|h r a u _ (E1 & E2)].
  - cbn. auto.
  - apply create_fields, run_inv.
  - unfold reduce, unpickle. destruct (create_fields (run h) (r_addr r) (match r_uid r with UBytes b => ABytes b | UObj n => AObj n end) (r_prox r) (run_inv h)) as (-> & ->).
    split; auto. rewrite E2. destruct u; reflexivity.
  - destruct (call_fields (run h) r) as (-> & ->). auto.
Qed.
Lemma eq_spec r s : py_eq r (VRef s) = true <-> r_addr r = r_addr s /\ r_uid r = r_uid s.
Proof.
  cbn [py_eq]. rewrite andb_true_iff. split; intros (A & B); split.
  - destruct (r_addr r), (r_addr s); cbn in A; try discriminate; auto. destruct (text_eqb_spec l l0); congruence.
  - destruct (r_uid r), (r_uid s); cbn in B; try discriminate.
    + destruct (text_eqb_spec b b0); congruence.
    + apply Nat.eqb_eq in B. congruence.
  - rewrite A. destruct (r_addr s); cbn; auto. apply text_eqb_refl.
  - rewrite B. destruct (r_uid s); cbn; [apply text_eqb_refl|apply Nat.eqb_refl].
Qed.

(** ** Theorems: C42 *)

(** Equal iff same address and same uid, however and wherever the two were obtained. *)
Theorem C42_equal_iff_same_actor : forall r a u s b v,
  obtained r a u -> obtained s b v ->
  (py_eq r (VRef s) = true <-> a = b /\ u = v).
Proof.
  intros r a u s b v O P. apply obtained_fields in O as (<- & <-), P as (<- & <-). apply eq_spec.
Qed.

(** Equality is an equivalence on references, and nothing else equals a reference. *)
Theorem C42_equality_is_an_equivalence :
  (forall r, py_eq r (VRef r) = true) /\
  (forall r s, py_eq r (VRef s) = py_eq s (VRef r)) /\
  (forall r s t, py_eq r (VRef s) = true -> py_eq s (VRef t) = true -> py_eq r (VRef t) = true) /\
  (forall r n, py_eq r (Other n) = false).
Proof.
  split; [|split; [|split]].
  - intros r. now apply eq_spec.
  - intros r s. apply eq_true_iff_eq. rewrite !eq_spec. intuition congruence.
  - intros r s t. rewrite !eq_spec. intuition congruence.
  - reflexivity.
Qed.

(** Equal references hash equally (for whatever hash function Python uses on the pair). *)
Theorem C42_equal_hash_equally : forall H r s, py_eq r (VRef s) = true -> py_hash H r = py_hash H s.
Proof. intros H r s E. apply eq_spec in E as (A & B). unfold py_hash. now rewrite A, B. Qed.

(** Sending a reference to any process, in any state, gives an equal reference; so what was
    equal stays equal and what was different stays different. *)
Theorem C42_sending_preserves_equality : forall r a u s b v h k,
  obtained r a u -> obtained s b v ->
  py_eq (unpickle (run h) (reduce r)) (VRef r) = true /\
  py_eq (unpickle (run h) (reduce r)) (VRef (unpickle (run k) (reduce s))) = py_eq r (VRef s).
Proof.
  intros r a u s b v h k O P.
  pose proof (ob_sent h r a u O) as O'. pose proof (ob_sent k s b v P) as P'.
  split.
  - apply (C42_equal_iff_same_actor _ a u _ a u O' O). auto.
  - apply eq_true_iff_eq. rewrite (C42_equal_iff_same_actor _ _ _ _ _ _ O' P'). symmetry. now apply C42_equal_iff_same_actor.
Qed.

(** The public function: (address, uid), uid with an address keyword, keywords only, and an
    existing reference (optionally at another address) all denote what they say; a missing uid,
    an unknown keyword or an address given twice is refused. *)
Theorem C42_argument_forms : forall a u px (isb : bool),
  let up := if isb then ABytes u else AStr u in
  let none := {| k_addr := None; k_uid := None; k_prox := None; k_other := false |} in
  (forall ab, exists r, api_ref [PText a ab; PText u isb] none = Made r /\ r_addr r = Some a /\ r_uid r = UBytes u /\ r_prox r = None) /\
  (forall ab, exists r, api_ref [PText a ab; PText u isb; PProx px] none = Made r /\ r_addr r = Some a /\ r_uid r = UBytes u /\ r_prox r = Some px) /\
  (exists r, api_ref [PText u isb] {| k_addr := Some a; k_uid := None; k_prox := None; k_other := false |} = Made r /\ r_addr r = Some a /\ r_uid r = UBytes u) /\
  (exists r, api_ref [] {| k_addr := Some a; k_uid := Some up; k_prox := Some px; k_other := false |} = Made r /\ r_addr r = Some a /\ r_uid r = UBytes u /\ r_prox r = Some px) /\
  (forall r, exists s, api_ref [PRef r] none = Made s /\ py_eq s (VRef r) = true /\ r_prox s = r_prox r) /\
  (forall r, a <> [] -> exists s, api_ref [PRef r] {| k_addr := Some a; k_uid := None; k_prox := None; k_other := false |} = Made s /\ r_addr s = Some a /\ r_uid s = r_uid r) /\
  (api_ref [] {| k_addr := Some a; k_uid := None; k_prox := None; k_other := false |} = ValueError) /\
  (forall args k, k_other k = true -> api_ref args k = ValueError) /\
  (forall ab, a <> [] -> api_ref [PText a ab; PText u isb] {| k_addr := Some a; k_uid := None; k_prox := None; k_other := false |} = ValueError).
Proof.
  intros a u px isb up none. repeat apply conj.
  - intros ab. destruct isb; eexists; (split; [reflexivity|repeat split]).
  - intros ab. destruct isb; eexists; (split; [reflexivity|repeat split]).
  - destruct isb; eexists; (split; [reflexivity|repeat split]).
  - destruct isb; eexists; (split; [reflexivity|repeat split]).
  - intros r. eexists. split; [reflexivity|]. split; [|reflexivity]. now apply eq_spec.
  - intros r N. destruct a as [|c a]; [congruence|]. eexists. split; [reflexivity|repeat split].
  - reflexivity.
  - intros args k E. unfold api_ref. now rewrite E.
  - intros ab N. destruct a as [|c a]; [congruence|]. reflexivity.
Qed.

(** Further forms: no proxies, an empty address (which counts as none), objects as uids. *)
Theorem C42_argument_forms_more : forall a u (isb ab : bool) n r,
  let empty_address := {| k_addr := Some []; k_uid := None; k_prox := None; k_other := false |} in
  (exists s, api_ref [PText a ab; PText u isb; PNone] empty_address = Made s /\ r_addr s = Some a /\ r_uid s = UBytes u /\ r_prox s = None) /\
  (exists s, api_ref [PText a ab; PText u isb] empty_address = Made s /\ r_addr s = Some a /\ r_uid s = UBytes u) /\
  (exists s, api_ref [PText a ab; PObj n] empty_address = Made s /\ r_addr s = Some a /\ r_uid s = UObj n) /\
  (exists s, api_ref [PRef r] empty_address = Made s /\ py_eq s (VRef r) = true) /\
  (forall px, api_ref [PText a ab; PNone] empty_address = ValueError /\ api_ref [PText a ab; PNone; px] empty_address = ValueError).
Proof.
  intros a u isb ab n r e. split; [|split; [|split; [|split]]].
  - destruct isb; eexists; (split; [reflexivity|repeat split]).
  - destruct isb; eexists; (split; [reflexivity|repeat split]).
  - eexists; (split; [reflexivity|repeat split]).
  - eexists. split; [reflexivity|]. now apply eq_spec.
  - intros px. split; reflexivity.
Qed.

(** ** Theorems: C50 *)
Lemma objs_mono p x o a b al : nth_error (objs p) o = Some {| o_addr := a; o_uid := b; o_alive := al |} ->
  exists al', nth_error (objs (exec p x)) o = Some {| o_addr := a; o_uid := b; o_alive := al' |}.
Proof.
  intros E. destruct x as [c|c|c d|c d|i]; cbn [exec].
  - destruct (existsb _ _); eauto.
  - eauto.
  - destruct (existsb _ _); [|eauto]. destruct (find_actor _ _); [eauto|]. cbn [objs].
    exists al. rewrite nth_error_app1; auto. apply nth_error_Some. congruence.
  - eauto.
  - destruct (existsb _ _); [eauto|]. cbn [objs]. rewrite kill_nth. destruct (Nat.eqb o i); [|eauto].
    rewrite E. cbn. eauto.
Qed.
Lemma held_spec h r a b : held h r a b -> r_addr r = Some a /\ r_uid r = UBytes b /\
  match r_kind r with
  | Remote => True
  | Local w => exists al, nth_error (objs (run h)) w = Some {| o_addr := a; o_uid := b; o_alive := al |}
  end.
Proof.
  induction 1 as [h a u b px E|h a u b px E|h x r a b _ (A & B & C)|h r a b _ (A & B & C)].
  - cbn. auto.
  - destruct (create_fields (run h) (Some a) u px (run_inv h)) as (-> & ->). split; [auto|split; [auto|]].
    unfold create_actor_ref. destruct (get_local_actor (run h) (Some a) u) as [o|] eqn:G; [|cbn; auto].
    destruct (local_spec _ _ _ _ (run_inv h) G) as (a' & b' & Ea & Eu & _ & N). unfold LocalActorRef. rewrite N. cbn [r_kind].
    inversion Ea; subst. cbn in E. inversion E; subst. eauto.
  - split; [auto|split; [auto|]]. destruct (r_kind r); auto. destruct C as (al & N). rewrite run_app. eapply objs_mono; eauto.
  - destruct (call_fields (run h) r) as (-> & ->). split; [auto|split; [auto|]].
    unfold call. rewrite A, B. destruct (r_kind r) as [|w] eqn:K; cbn [snd]; [now rewrite K|].
    destruct (alive (run h) w) eqn:Al; cbn [snd]; [now rewrite K|].
    destruct (get_local_actor (run h) (Some a) (ABytes b)) as [o|] eqn:G; cbn [snd r_kind]; [|now rewrite K].
    destruct (local_spec _ _ _ _ (run_inv h) G) as (a' & b' & Ea & Eu & _ & N). inversion Ea; inversion Eu; subst. eauto.
Qed.
Lemma get_holds h a b o : get_local_actor (run h) (Some a) (ABytes b) = Some o <-> holds (run h) a b o.
Proof.
  pose proof (run_inv h) as I. split; intros G.
  - destruct (local_spec _ _ _ _ I G) as (a' & b' & Ea & Eu & Hd & _). inversion Ea; inversion Eu; subst. exact Hd.
  - unfold get_local_actor. rewrite (i_pool _ I _ _ _ G).
    destruct (find_actor (a, b) (actors (run h))) as [o'|] eqn:F.
    + f_equal. apply find_In in F. eapply (i_one _ I); eauto.
    + exfalso. eapply find_none; eauto.
Qed.

(** The full claim: a call is executed by the actor the pool holds now under the reference's
    address and uid, and raises ActorNotExist when there is none. *)
Definition C50_claim : Prop := forall h r a b, held h r a b ->
  (forall o, fst (call (run h) r) = RunsOn o <-> holds (run h) a b o) /\
  (fst (call (run h) r) = ActorNotExist <-> forall o, ~ holds (run h) a b o).

(** *** Which actors a pool holds, from what happened *)
Definition open_after (h : list op) (a : text) : Prop := exists u v, h = u ++ OpenPool a :: v /\ ~ In (ClosePool a) v.
(** [b] was created at [a] while the pool was open, and since then neither destroyed nor its pool closed. *)
Definition kept (h : list op) (a b : text) : Prop := exists u v, h = u ++ Create a b :: v /\ open_after u a /\
  ~ In (Destroy a b) v /\ ~ In (ClosePool a) v.

Lemma snoc_split {A} (h : list A) x u y v : h ++ [x] = u ++ y :: v ->
  (v = [] /\ x = y /\ u = h) \/ exists v', v = v' ++ [x] /\ h = u ++ y :: v'.
Proof.
  destruct v as [|z v _] using rev_ind; intros E.
  - apply app_inj_tail in E as (-> & ->). auto.
  - right. exists v. rewrite app_comm_cons, app_assoc in E. apply app_inj_tail in E as (-> & ->). auto.
Qed.
Lemma open_spec : forall h a, In a (pools (run h)) <-> open_after h a.
Proof.
  intros h a. induction h as [|x h IH] using rev_ind.
  - split; [intros []|]. intros ([|? ?] & ? & E & _); discriminate.
  - rewrite run_app.
    assert (O : forall y, x = y -> y <> OpenPool a -> y <> ClosePool a -> (open_after (h ++ [x]) a <-> open_after h a)).
    { intros y -> N1 N2. split.
      - intros (u & v & E & N). apply snoc_split in E. destruct E as [(-> & -> & ->)|(v' & -> & ->)]; [congruence|].
        exists u, v'. split; auto. intros Y. apply N, in_or_app. auto.
      - intros (u & v & -> & N). exists u, (v ++ [y]). rewrite <- app_assoc. split; auto. intros Y. apply in_app_or in Y.
        destruct Y as [Y|[Y|[]]]; auto. }
    destruct x as [c|c|c d|c d|i]; cbn [exec].
    + destruct (text_eqb_spec a c) as [->|D].
      * split; [intros _; exists h, []; auto|]. intros _. destruct (existsb (text_eqb c) (pools (run h))) eqn:E; [|now left].
        apply existsb_exists in E as (y & I & E). destruct (text_eqb_spec c y); [now subst|discriminate].
      * rewrite (O (OpenPool c)) by congruence. rewrite <- IH. destruct (existsb _ _); [reflexivity|]. cbn [pools In]. intuition congruence.
    + cbn [pools]. rewrite filter_In. destruct (text_eqb_spec c a) as [->|D]; cbn [negb].
      * split; [intros (_ & E); discriminate|]. intros (u & v & E & N). apply snoc_split in E.
        destruct E as [(_ & E & _)|(v' & -> & _)]; [discriminate|]. elim N. apply in_or_app. right. now left.
      * rewrite (O (ClosePool c)) by congruence. rewrite <- IH. tauto.
    + rewrite (O (Create c d)) by congruence. rewrite <- IH. destruct (existsb _ _); [|reflexivity]. destruct (find_actor _ _); reflexivity.
    + rewrite (O (Destroy c d)) by congruence. rewrite <- IH. reflexivity.
    + rewrite (O (Collect i)) by congruence. rewrite <- IH. destruct (existsb _ _); reflexivity.
Qed.

(** A pool holds exactly the actors that were created in it and not taken out again. *)
Theorem C50_what_a_pool_holds : forall h a b, (exists o, holds (run h) a b o) <-> kept h a b.
Proof.
  intros h a b. induction h as [|x h IH] using rev_ind.
  - split; [intros (o & [])|]. intros ([|? ?] & ? & E & _); discriminate.
  - rewrite run_app. unfold holds in *.
    assert (O : forall y, x = y -> y <> Create a b -> y <> Destroy a b -> y <> ClosePool a -> (kept (h ++ [x]) a b <-> kept h a b)).
    { intros y -> N1 N2 N3. split.
      - intros (u & v & E & P & D & N). apply snoc_split in E. destruct E as [(-> & -> & ->)|(v' & -> & ->)]; [congruence|].
        exists u, v'. split; auto. split; auto. split; intros Y; [apply D|apply N]; apply in_or_app; auto.
      - intros (u & v & -> & P & D & N). exists u, (v ++ [y]). rewrite <- app_assoc. split; auto. split; auto.
        split; intros Y; apply in_app_or in Y; destruct Y as [Y|[Y|[]]]; auto. }
    destruct x as [c|c|c d|c d|i]; cbn [exec].
    + rewrite (O (OpenPool c)) by congruence. rewrite <- IH. destruct (existsb _ _); reflexivity.
    + cbn [actors]. destruct (text_eqb_spec c a) as [->|D].
      * split.
        -- intros (o & I). apply filter_In in I as (_ & E). cbn [fst] in E. now rewrite text_eqb_refl in E.
        -- intros (u & v & E & _ & _ & N). apply snoc_split in E. destruct E as [(_ & E & _)|(v' & -> & _)]; [discriminate|].
           elim N. apply in_or_app. right. now left.
      * rewrite (O (ClosePool c)) by congruence. rewrite <- IH. split; intros (o & I); exists o; rewrite filter_In in *.
        -- tauto.
        -- split; [exact I|]. cbn [fst]. destruct (text_eqb_spec c a); [congruence|reflexivity].
    + destruct (existsb (text_eqb c) (pools (run h))) eqn:E.
      * apply existsb_exists in E as (y & I & E). destruct (text_eqb_spec c y) as [->|]; [|discriminate]. apply open_spec in I.
        destruct (key_eqb_spec (y, d) (a, b)) as [K|K].
        -- injection K as -> ->. split.
           ++ intros _. exists h, []. cbn. auto.
           ++ intros _. destruct (find_actor (a, b) (actors (run h))) eqn:F; [apply find_In in F; eauto|]. eexists. left. reflexivity.
        -- rewrite (O (Create y d)) by congruence. rewrite <- IH. destruct (find_actor _ _); [reflexivity|]. cbn [actors In].
           split; intros (o & J); exists o; [|auto]. destruct J as [J|J]; [congruence|exact J].
      * destruct (key_eqb_spec (c, d) (a, b)) as [K|K].
        -- injection K as -> ->.
           assert (NO : ~ open_after h a).
           { intros Y. apply open_spec in Y. assert (X : existsb (text_eqb a) (pools (run h)) = true).
             { apply existsb_exists. exists a. split; auto. apply text_eqb_refl. }
             congruence. }
           rewrite IH. split.
           ++ intros (u & v & -> & P & D & N). elim NO. destruct P as (u' & v' & -> & N'). exists u', (v' ++ Create a b :: v).
              split; [now rewrite <- app_assoc|]. intros Y. apply in_app_or in Y. destruct Y as [Y|[Y|Y]]; auto. discriminate.
           ++ intros (u & v & X & P & D & N). apply snoc_split in X. destruct X as [(-> & _ & ->)|(v' & -> & ->)]; [contradiction|].
              exists u, v'. split; auto. split; auto. split; intros Y; [apply D|apply N]; apply in_or_app; auto.
        -- rewrite (O (Create c d)) by congruence. exact IH.
    + cbn [actors]. destruct (key_eqb_spec (c, d) (a, b)) as [K|K].
      * injection K as -> ->. split.
        -- intros (o & I). unfold remove_actor in I. apply filter_In in I as (_ & E). cbn [fst] in E.
           destruct (key_eqb_spec (a, b) (a, b)); [discriminate|congruence].
        -- intros (u & v & E & _ & N & _). apply snoc_split in E. destruct E as [(_ & E & _)|(v' & -> & _)]; [discriminate|].
           elim N. apply in_or_app. right. now left.
      * rewrite (O (Destroy c d)) by congruence. rewrite <- IH. unfold remove_actor. split; intros (o & I); exists o; rewrite filter_In in *.
        -- tauto.
        -- split; [exact I|]. cbn [fst]. destruct (key_eqb_spec (c, d) (a, b)); [congruence|reflexivity].
    + rewrite (O (Collect i)) by congruence. rewrite <- IH. destruct (existsb _ _); reflexivity.
Qed.

(** Part 1: always true of remote references. *)
Theorem C50_remote_references_exact_partial : forall h r a b, held h r a b -> r_kind r = Remote ->
  (forall o, fst (call (run h) r) = RunsOn o <-> holds (run h) a b o) /\
  (fst (call (run h) r) = ActorNotExist <-> forall o, ~ holds (run h) a b o).
Proof.
  intros h r a b Hd K. destruct (held_spec _ _ _ _ Hd) as (A & B & _). unfold call. rewrite K, A, B. cbn [fst].
  split.
  - intros o. rewrite <- get_holds. destruct (get_local_actor _ _ _); split; intros E; inversion E; auto.
  - destruct (get_local_actor _ _ _) as [o|] eqn:G.
    + split; [discriminate|]. intros N. exfalso. eapply N, get_holds, G.
    + split; [|auto]. intros _ o C. apply get_holds in C. congruence.
Qed.

(** Part 2: true of every reference while no destroyed actor lingers, i.e. while every live
    object of this identity is the one in the pool. *)
Theorem C50_exact_without_lingering_partial : forall h r a b, held h r a b ->
  (forall o, is_object (run h) a b o -> holds (run h) a b o) ->
  (forall o, fst (call (run h) r) = RunsOn o <-> holds (run h) a b o) /\
  (fst (call (run h) r) = ActorNotExist <-> forall o, ~ holds (run h) a b o).
Proof.
  intros h r a b Hd NL. destruct (r_kind r) as [|w] eqn:K; [now apply C50_remote_references_exact_partial|].
  destruct (held_spec _ _ _ _ Hd) as (A & B & C). rewrite K in C. destruct C as (al & N).
  unfold call. rewrite K, A, B. unfold alive. rewrite N. cbn [o_alive].
  destruct al; cbn [fst].
  - assert (Hw : holds (run h) a b w) by (apply NL, N). split.
    + intros o. split; [intros E; inversion E; subst; exact Hw|]. intros Ho. f_equal. eapply (i_one _ (run_inv h)); eauto.
    + split; [discriminate|]. intros F. exfalso. eapply F, Hw.
  - destruct (get_local_actor _ _ _) as [o|] eqn:G; cbn [fst].
    + apply get_holds in G. split.
      * intros o'. split; [intros E; inversion E; subst; exact G|]. intros Ho. f_equal. eapply (i_one _ (run_inv h)); eauto.
      * split; [discriminate|]. intros F. exfalso. eapply F, G.
    + split.
      * intros o. split; [discriminate|]. intros Ho. apply get_holds in Ho. congruence.
      * split; [|auto]. intros _ o Ho. apply get_holds in Ho. congruence.
Qed.

(** Part 3: whatever lingers, a call never runs on an object of another identity or one that is
    gone, and never says ActorNotExist while the actor is there. *)
Theorem C50_identity_and_no_false_absence_partial : forall h r a b, held h r a b ->
  (forall o, fst (call (run h) r) = RunsOn o -> is_object (run h) a b o) /\
  (fst (call (run h) r) = ActorNotExist -> forall o, ~ holds (run h) a b o).
Proof.
  intros h r a b Hd. pose proof (run_inv h) as I. destruct (r_kind r) as [|w] eqn:K.
  - destruct (C50_remote_references_exact_partial h r a b Hd K) as (R & N). split.
    + intros o E. apply (i_obj _ I), R, E.
    + apply N.
  - destruct (held_spec _ _ _ _ Hd) as (A & B & C). rewrite K in C. destruct C as (al & N).
    unfold call. rewrite K, A, B. unfold alive. rewrite N. cbn [o_alive]. destruct al; cbn [fst].
    + split; [|discriminate]. intros o E. inversion E; subst. exact N.
    + destruct (get_local_actor _ _ _) as [o|] eqn:G; cbn [fst].
      * split; [|discriminate]. intros o' E. inversion E; subst. apply (i_obj _ I), get_holds, G.
      * split; [discriminate|]. intros _ o Ho. apply get_holds in Ho. congruence.
Qed.

(** Refuted in general: an actor is destroyed and created again under the same uid while
    something (a running method, a reference cycle) still keeps the old object: a local
    reference obtained before goes on calling the old, destroyed actor. *)
Module Demo.
  Definition A := lit "127.0.0.1:7777".
  Definition U := lit "counter".
  Definition h1 := [OpenPool A; Create A U].
  Definition r := create_actor_ref (run h1) (Some A) (ABytes U) None.
  Definition h2 := h1 ++ [Destroy A U] ++ [Create A U].
  Example r_is_local : r_kind r = Local 0. Proof. reflexivity. Qed.
  Example r_held : held h2 r A U.
  Proof. unfold h2. rewrite app_assoc. apply h_later, h_later. apply h_create. reflexivity. Qed.
  Example calls_the_old : fst (call (run h2) r) = RunsOn 0. Proof. reflexivity. Qed.
  Example pool_has_the_new : holds (run h2) A U 1. Proof. left. reflexivity. Qed.
  (** The hypothesis of part 2 is met before the destruction, and again once the old object is
      collected: then the same reference finds the new actor. *)
  Example no_linger1 : forall o, is_object (run h1) A U o -> holds (run h1) A U o.
  Proof. intros [|[|o]] E; vm_compute in E; try discriminate. left. reflexivity. Qed.
  Definition h3 := h2 ++ [Collect 0].
  Example no_linger3 : forall o, is_object (run h3) A U o -> holds (run h3) A U o.
  Proof. intros [|[|[|o]]] E; vm_compute in E; try discriminate. left. reflexivity. Qed.
  Example finds_the_new : fst (call (run h3) r) = RunsOn 1. Proof. reflexivity. Qed.
  (** Two references to the same actor, one local and one remote, are equal. *)
  Example local_equals_remote : py_eq r (VRef (ActorRef (Some A) (AStr U) (Some [lit "proxy"]))) = true.
  Proof. reflexivity. Qed.
  Example obtained_both : obtained r (Some A) (UBytes U) /\ obtained (ActorRef (Some A) (AStr U) (Some [lit "proxy"])) (Some A) (UBytes U).
  Proof. split; [apply (ob_create h1 (Some A) (ABytes U) None)|apply (ob_new (Some A) (AStr U))]. Qed.
End Demo.

Theorem C50_lingering_actor_refuted : ~ C50_claim.
Proof.
  intros C. destruct (C Demo.h2 Demo.r Demo.A Demo.U Demo.r_held) as (R & _).
  pose proof (proj1 (R 0) Demo.calls_the_old) as Hd. vm_compute in Hd. destruct Hd as [E|[]]. discriminate.
Qed.

Print Assumptions C42_equal_iff_same_actor.
Print Assumptions C42_equality_is_an_equivalence.
Print Assumptions C42_equal_hash_equally.
Print Assumptions C42_sending_preserves_equality.
Print Assumptions C42_argument_forms.
Print Assumptions C50_remote_references_exact_partial.
Print Assumptions C50_exact_without_lingering_partial.
Print Assumptions C50_identity_and_no_false_absence_partial.
Print Assumptions C50_lingering_actor_refuted.
Print Assumptions C50_what_a_pool_holds.
Print Assumptions C42_argument_forms_more.
