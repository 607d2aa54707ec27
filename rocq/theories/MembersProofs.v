From Coq Require Import List Bool Arith Lia Permutation.
From Verif Require Import Dict MembersModel MembersSpec.
Import ListNotations.

Notation geq := Nat.eqb.
Notation gsp := Nat.eqb_spec.

Ltac destruct_if A G := match type of A with (if ?b then _ else _) = _ => destruct b eqn:G end.

Lemma run_app : forall os1 os2 s, run s (os1 ++ os2) = match run s os1 with Some s' => run s' os2 | None => None end.
Proof. induction os1 as [|o os1 IH]; intros os2 s; [reflexivity|]. cbn [app run]. destruct (apply s o); auto. Qed.
Lemma run_snoc : forall s os o s', run s (os ++ [o]) = Some s' -> exists s1, run s os = Some s1 /\ apply s1 o = Some s'.
Proof.
  intros s os o s' R. rewrite run_app in R. destruct (run s os) as [s1|]; [|discriminate]. exists s1. split; [reflexivity|].
  cbn [run] in R. destruct (apply s1 o); congruence.
Qed.
Lemma always_snoc : forall P os o s, always P s (os ++ [o]) -> always P s os /\ (forall s1, run s os = Some s1 -> P s1 o).
Proof.
  intros P. induction os as [|x os IH]; intros o s A; cbn [app always run] in *.
  - destruct A as [A _]. split; [exact Logic.I|]. now intros s1 [= <-].
  - destruct A as [A B]. split.
    + split; [exact A|]. intros s' E. now apply (IH o s' (B s' E)).
    + intros s1 R. destruct (apply s x) as [s'|] eqn:E; [|discriminate]. now apply (IH o s' (B s' eq_refl)).
Qed.
Lemma joined_snoc : forall os o, joined (os ++ [o]) = next_joined (joined os) o.
Proof. intros. unfold joined. now rewrite fold_left_app. Qed.
Lemma waiting_snoc : forall os o, waiting (os ++ [o]) = next_waiting (waiting os) o.
Proof. intros. unfold waiting. now rewrite fold_left_app. Qed.
Lemma leaving_snoc : forall os o, leaving (os ++ [o]) = next_leaving (leaving os) o.
Proof. intros. unfold leaving. now rewrite fold_left_app. Qed.
Lemma tidy_snoc : forall m os o, tidy m (os ++ [o]) -> tidy m os /\ tidy_op m os o.
Proof.
  intros m os o T. split.
  - intros os1 x os2 E. apply (T os1 x (os2 ++ [o])). rewrite E, <- app_assoc. reflexivity.
  - now apply (T os o []).
Qed.

Lemma memb_In : forall a l, memb a l = true <-> In a l.
Proof. intros a l. unfold memb. rewrite existsb_exists. split; [intros (x & I & E); apply Nat.eqb_eq in E; now subst|]. intros I. exists a. now rewrite Nat.eqb_refl. Qed.
Lemma memb_not : forall a l, memb a l = false <-> ~ In a l.
Proof. intros a l. rewrite <- memb_In. destruct (memb a l); split; congruence. Qed.

(** ** Dictionaries as filters *)
Lemma gdel_filter : forall V (d : list (nat * V)) k, gdel geq d k = filter (fun kv => negb (Nat.eqb (fst kv) k)) d.
Proof. induction d as [|[k0 v] d IH]; intros k; [reflexivity|]. cbn. destruct (Nat.eqb k0 k); cbn; now rewrite IH. Qed.
Lemma filter_perm : forall A (f : A -> bool) l l', Permutation l l' -> Permutation (filter f l) (filter f l').
Proof.
  intros A f l l' P. induction P; cbn.
  - constructor.
  - destruct (f x); auto.
  - destruct (f x), (f y); try constructor; auto. 
  - eauto using Permutation_trans.
Qed.
Lemma filter_all : forall A (f : A -> bool) l, (forall x, In x l -> f x = true) -> filter f l = l.
Proof. induction l as [|x l IH]; intros H; [reflexivity|]. cbn. rewrite (H x (or_introl eq_refl)), IH; auto. intros; apply H; now right. Qed.
Lemma filter_ext_in' : forall A (f g : A -> bool) l, (forall x, In x l -> f x = g x) -> filter f l = filter g l.
Proof. induction l as [|x l IH]; intros H; [reflexivity|]. cbn. rewrite (H x (or_introl eq_refl)), IH; auto. intros; apply H; now right. Qed.
Lemma gset_perm : forall V (d : list (nat * V)) k v w, NoDup (gkeys d) -> gget geq d k = Some v ->
  Permutation (gset geq d k w) ((k, w) :: gdel geq d k).
Proof.
  induction d as [|[k0 v0] d IH]; intros k v w N G; [discriminate|]. cbn in *. inversion N; subst.
  destruct (Nat.eqb_spec k0 k) as [->|Ne].
  - constructor. rewrite (gdel_id geq); [reflexivity|]. now apply (gget_None geq gsp).
  - etransitivity; [apply perm_skip, (IH k v w H2 G)|]. apply perm_swap.
Qed.
Lemma NoDup_perm_keys : forall V (d d' : list (nat * V)), Permutation d d' -> NoDup (gkeys d) -> NoDup (gkeys d').
Proof. intros V d d' P. unfold gkeys. apply Permutation_NoDup. now apply Permutation_map. Qed.

(** ** The main pool's configuration *)
Definition reals (c : config) : list nat := flat_map (fun kv => match snd kv with At a => [a] | Unknown => [] end) c.
Lemma reals_In : forall c a, In a (reals c) <-> exists i, In (i, At a) c.
Proof.
  intros c a. unfold reals. rewrite in_flat_map. split.
  - intros ([i e] & I & E). destruct e as [|b]; cbn in E; [tauto|]. destruct E as [->|[]]. eauto.
  - intros (i & I). exists (i, At a). split; [exact I|now left].
Qed.
Lemma reals_uniq : forall c a i j, NoDup (reals c) -> In (i, At a) c -> In (j, At a) c -> i = j.
Proof.
  induction c as [|[k e] c IH]; intros a i j N I J; [destruct I|].
  assert (Nc : NoDup (reals c)) by (cbn in N; destruct e; [exact N|now inversion N]).
  destruct I as [I|I], J as [J|J]; [congruence| | |eauto].
  - injection I as -> ->. cbn in N. inversion N; subst. exfalso. apply H1, reals_In. eauto.
  - injection J as -> ->. cbn in N. inversion N; subst. exfalso. apply H1, reals_In. eauto.
Qed.
Lemma reals_perm : forall c c', Permutation c c' -> Permutation (reals c) (reals c').
Proof. intros c c' P. unfold reals. now apply Permutation_flat_map. Qed.
Lemma reals_filter : forall f c, NoDup (reals c) -> NoDup (reals (filter f c)).
Proof.
  induction c as [|[k e] c IH]; intros N; [constructor|]. cbn [filter].
  assert (Nc : NoDup (reals c)) by (cbn in N; destruct e; [exact N|now inversion N]).
  destruct (f (k, e)); [|auto]. destruct e as [|a]; cbn; [auto|]. constructor; [|apply IH, Nc].
  cbn in N. inversion N; subst. intros I. apply H1. apply reals_In in I as [i I]. apply filter_In in I as [I _]. apply reals_In. eauto.
Qed.

Definition up_entries (l : list (nat * nat)) : config := map (fun w => (fst w, At (snd w))) l.

Record known (i0 m : nat) (os : list op) (s : state) : Prop := {
  k_perm : Permutation (cfg s) ((i0, At m) :: up_entries (joined os) ++ waiting os);
  k_keys : NoDup (gkeys (cfg s));
  k_reals : NoDup (reals (cfg s));
  k_start : forall i x, gget geq (starting s) i = Some x -> In i (map fst (waiting os))
}.

Lemma same_start : forall (P : nat -> Prop) d k i (x : nat * config), gget geq (gdel geq d k) i = Some x ->
  gget geq d i = Some x /\ i <> k.
Proof. intros P d k i x E. rewrite (gget_gdel geq gsp) in E. destruct (Nat.eqb_spec k i); [discriminate|]. split; auto. Qed.

Lemma index_of_In : forall c a i, index_of c a = Some i -> In (i, At a) c.
Proof.
  intros c a i H. unfold index_of in H. destruct (find _ c) as [[j e]|] eqn:F; [|discriminate]. injection H as ->.
  apply find_some in F as [I E]. cbn in E. destruct e as [|b]; [discriminate|]. cbn in E. apply Nat.eqb_eq in E. now subst.
Qed.

Lemma known_run : forall i0 m os s, run (initial i0 m) os = Some s -> tidy m os -> known i0 m os s.
Proof.
  intros i0 m. induction os as [|o os IH] using rev_ind; intros s R T.
  - injection R as <-. split; cbn; [reflexivity|repeat constructor; auto|repeat constructor; auto|discriminate].
  - apply run_snoc in R as (s1 & R & A). apply tidy_snoc in T as [T To]. destruct (IH s1 R T) as [P K U St]. clear IH.
    assert (Same : forall s2, cfg s2 = cfg s1 -> joined (os ++ [o]) = joined os -> waiting (os ++ [o]) = waiting os ->
              (forall i x, gget geq (starting s2) i = Some x -> gget geq (starting s1) i = Some x) -> known i0 m (os ++ [o]) s2).
    { intros s2 Ec Ej Ew Es. split; rewrite ?Ec, ?Ej, ?Ew; auto. intros i x G. eapply St. eauto. }
    assert (Nw : NoDup (gkeys ((i0, At m) :: up_entries (joined os) ++ waiting os))) by (eapply NoDup_perm_keys; eauto).
    destruct o as [i e p|i a|i|a|a|a p|a|n|n|p|a p|a]; cbn [apply] in A.
    + destruct_if A G; [discriminate|]. injection A as <-.
      apply orb_false_iff in G as [G _]. apply orb_false_iff in G as [G _]. apply orb_false_iff in G as [G _].
      apply memb_not in G. split; cbn [cfg starting].
      * rewrite joined_snoc, waiting_snoc. cbn [next_joined next_waiting]. rewrite app_assoc, app_comm_cons. now apply Permutation_app_tail.
      * unfold gkeys. rewrite map_app. apply (Permutation_NoDup (l := i :: map fst (cfg s1))); [|constructor; auto].
        apply Permutation_cons_append.
      * unfold reals. rewrite flat_map_app. destruct e as [|b]; cbn [flat_map snd app]; [now rewrite app_nil_r|].
        apply (Permutation_NoDup (l := b :: reals (cfg s1))); [apply Permutation_cons_append|]. constructor; [|exact U].
        intros I. apply reals_In in I as [j I]. cbn in To. destruct To as (T1 & T2 & T3).
        apply (Permutation_in _ P) in I. destruct I as [I|I]; [congruence|]. apply in_app_or in I as [I|I].
        -- apply T2. unfold up_entries in I. apply in_map_iff in I as ([k b'] & E & I). injection E as _ ->.
           apply in_map_iff. exists (k, b). auto.
        -- apply T3. apply in_map_iff. exists (j, At b). auto.
      * intros j x Gj. rewrite waiting_snoc. cbn [next_waiting]. rewrite map_app, in_app_iff.
        rewrite (gget_gset geq gsp) in Gj. destruct (Nat.eqb_spec i j) as [->|]; [right; now left|left; eauto].
    + destruct (gget geq (starting s1) i) as [[p c]|] eqn:G; [|discriminate]. injection A as <-.
      assert (Iw := St i _ G). cbn in To. destruct To as (T1 & T2 & T3 & T4).
      assert (Ic : In i (gkeys (cfg s1))).
      { unfold gkeys. apply (Permutation_in i (Permutation_sym (Permutation_map fst P))). cbn. right. rewrite map_app. apply in_or_app. now right. }
      destruct (gget_Some_key geq gsp _ _ Ic) as [e Ge].
      assert (Q : Permutation (reset (cfg s1) i a) ((i, At a) :: gdel geq (cfg s1) i)) by (eapply gset_perm; eauto).
      assert (D : Permutation (gdel geq (cfg s1) i)
                 ((i0, At m) :: up_entries (joined os) ++ filter (fun w => negb (Nat.eqb (fst w) i)) (waiting os))).
      { rewrite gdel_filter. etransitivity; [apply filter_perm, P|]. cbn [filter fst].
        inversion Nw; subst. unfold gkeys in *. rewrite map_app in *.
        destruct (Nat.eqb_spec i0 i) as [->|Ne]; [exfalso; apply H1, in_or_app; auto|]. cbn. constructor.
        rewrite filter_app. apply Permutation_app; [|reflexivity]. rewrite filter_all; [reflexivity|].
        intros [k e'] I. cbn. destruct (Nat.eqb_spec k i) as [->|]; [exfalso|reflexivity].
        assert (Ik : In i (map fst (up_entries (joined os)))) by (apply in_map_iff; exists (i, e'); auto).
        clear -H2 Ik Iw. induction (map fst (up_entries (joined os))) as [|x l IHl]; [destruct Ik|].
        cbn in H2. inversion H2; subst. destruct Ik as [->|Ik]; [apply H1, in_or_app; auto|auto]. }
      split; cbn [cfg starting].
      * rewrite joined_snoc, waiting_snoc. cbn [next_joined next_waiting]. unfold up_entries at 1. rewrite map_app. cbn [map fst snd].
        etransitivity; [exact Q|]. etransitivity; [apply perm_skip, D|]. etransitivity; [apply perm_swap|]. constructor.
        rewrite <- app_assoc. apply Permutation_middle.
      * now apply (NoDup_gset geq gsp).
      * apply (Permutation_NoDup (Permutation_sym (reals_perm _ _ Q))). cbn. constructor.
        -- intros I. apply (Permutation_in _ (reals_perm _ _ D)) in I. apply reals_In in I as [k I]. destruct I as [I|I]; [congruence|].
           apply in_app_or in I as [I|I].
           ++ apply T2. unfold up_entries in I. apply in_map_iff in I as ([k' b'] & E & I). injection E as _ ->.
              apply in_map_iff. exists (k', a). auto.
           ++ apply filter_In in I as [I F]. cbn in F. rewrite (T4 k I), Nat.eqb_refl in F. discriminate.
        -- rewrite gdel_filter. now apply reals_filter.
      * intros j x Gj. apply (same_start (fun _ => True)) in Gj as [Gj Nj]. rewrite waiting_snoc. cbn [next_waiting].
        apply St in Gj. apply in_map_iff in Gj as ([j' e'] & Ej & I). cbn in Ej. subst j'. apply in_map_iff. exists (j, e'). split; [reflexivity|].
        apply filter_In. split; [exact I|]. cbn. destruct (Nat.eqb_spec j i); [congruence|reflexivity].
    + destruct (gget geq (starting s1) i) as [[p c]|] eqn:G; [|discriminate]. injection A as <-.
      apply Same; cbn; auto; rewrite ?joined_snoc, ?waiting_snoc; auto.
      intros j x Gj. now apply (same_start (fun _ => True)) in Gj as [Gj _].
    + destruct (gget geq (subs s1) a) as [p|]; [|discriminate]. destruct (index_of (cfg s1) a) as [i|] eqn:X; [|discriminate]. injection A as <-.
      cbn in To. apply index_of_In in X. unfold members in To. apply in_map_iff in To as ([j b] & E & J). cbn in E. subst b.
      assert (J' : In (j, At a) (cfg s1)).
      { apply (Permutation_in _ (Permutation_sym P)). right. apply in_or_app. left. apply in_map_iff. exists (j, a). auto. }
      assert (j = i) by (eapply reals_uniq; eauto). subst j. clear J'.
      unfold gkeys in Nw. cbn [map fst] in Nw. rewrite map_app in Nw. inversion Nw as [|? ? N1 N2]; subst.
      assert (Ij : In i (map fst (up_entries (joined os)))) by (apply in_map_iff; exists (i, At a); split; [reflexivity|]; apply in_map_iff; exists (i, a); auto).
      split; cbn [cfg starting].
      * rewrite joined_snoc, waiting_snoc. cbn [next_joined next_waiting]. rewrite gdel_filter. etransitivity; [apply filter_perm, P|].
        cbn [filter fst]. destruct (Nat.eqb_spec i0 i) as [->|Ne]; [exfalso; apply N1, in_or_app; auto|]. cbn. constructor.
        rewrite filter_app. apply Permutation_app.
        -- assert (Pk : forall w, In w (joined os) -> negb (Nat.eqb (fst w) i) = negb (Nat.eqb (snd w) a)).
           { intros [k b] I. cbn. f_equal.
             assert (Ik : In (k, At b) (cfg s1)).
             { apply (Permutation_in _ (Permutation_sym P)). right. apply in_or_app. left. apply in_map_iff. exists (k, b). auto. }
             destruct (Nat.eqb_spec k i) as [->|Nk], (Nat.eqb_spec b a) as [->|Nb]; auto; exfalso.
             - apply Nb. apply (gIn_get geq gsp) in Ik; [|exact K]. apply (gIn_get geq gsp) in X; [|exact K]. congruence.
             - apply Nk. eapply reals_uniq; eauto. }
           clear -Pk. induction (joined os) as [|w l IHl]; [reflexivity|]. cbn. rewrite <- (Pk w (or_introl eq_refl)).
           destruct (negb (Nat.eqb (fst w) i)); cbn; [constructor|]; apply IHl; intros; apply Pk; now right.
        -- rewrite filter_all; [reflexivity|]. intros [k e'] I. cbn. destruct (Nat.eqb_spec k i) as [->|]; [exfalso|reflexivity].
           assert (Ik : In i (map fst (waiting os))) by (apply in_map_iff; exists (i, e'); auto).
           clear -N2 Ik Ij. induction (map fst (up_entries (joined os))) as [|x l IHl]; [destruct Ij|].
           cbn in N2. inversion N2; subst. destruct Ij as [->|Ij]; [apply H1, in_or_app; auto|auto].
      * now apply (NoDup_gdel geq gsp).
      * rewrite gdel_filter. now apply reals_filter.
      * intros k x Gk. rewrite waiting_snoc. cbn. eauto.
    + destruct (gget geq (stopping s1) a); [|discriminate]. injection A as <-. apply Same; cbn; auto; rewrite ?joined_snoc, ?waiting_snoc; auto.
    + destruct (gget geq (home s1) p); [|discriminate]. destruct (Nat.eqb n a && memb a (tasks s1) && negb (memb p (dead s1))); [|discriminate].
      injection A as <-. apply Same; cbn; auto; rewrite ?joined_snoc, ?waiting_snoc; auto.
    + destruct (memb a (tasks s1)); [|discriminate]. injection A as <-. apply Same; cbn; auto; rewrite ?joined_snoc, ?waiting_snoc; auto.
    + destruct (nth_error (wire s1) n) as [[p c]|]; [|discriminate]. injection A as <-. apply Same; cbn; auto; rewrite ?joined_snoc, ?waiting_snoc; auto.
    + destruct (nth_error (wire s1) n) as [[p c]|]; [|discriminate]. injection A as <-. apply Same; cbn; auto; rewrite ?joined_snoc, ?waiting_snoc; auto.
    + destruct (gget geq (home s1) p); [|discriminate]. injection A as <-. apply Same; cbn; auto; rewrite ?joined_snoc, ?waiting_snoc; auto.
    + destruct (gget geq (subs s1) a); [|discriminate]. destruct (index_of (cfg s1) a); [|discriminate].
      destruct_if A G; [|discriminate]. injection A as <-. apply Same; cbn; auto; rewrite ?joined_snoc, ?waiting_snoc; auto.
    + destruct (gget geq (restarting s1) a) as [[p c]|]; [|discriminate]. injection A as <-. apply Same; cbn; auto; rewrite ?joined_snoc, ?waiting_snoc; auto.
Qed.

(** ** Processes, when none fails *)
Definition calm (o : op) : Prop := match o with Failed _ | Crash _ | Restart _ _ | Restarted _ => False | _ => True end.
Definition procs (l : list (nat * (nat * config))) : list nat := map (fun x => fst (snd x)) l.

Record alive (os : list op) (s : state) : Prop := {
  l_restart : restarting s = [];
  l_subs : forall a p, gget geq (subs s) a = Some p -> gget geq (home s) p = Some a /\ gget geq (views s) p <> None /\ ~ In p (dead s);
  l_stop : forall a p, gget geq (stopping s) a = Some p -> gget geq (home s) p = Some a;
  l_apart : forall a, In a (gkeys (stopping s)) -> ~ In a (gkeys (subs s));
  l_home : forall p a, gget geq (home s) p = Some a -> In p (dead s) \/ gget geq (subs s) a = Some p \/ gget geq (stopping s) a = Some p;
  l_start : forall i p c, gget geq (starting s) i = Some (p, c) -> gget geq (home s) p = None /\ ~ In p (dead s);
  l_procs : forall i j p c d, gget geq (starting s) i = Some (p, c) -> gget geq (starting s) j = Some (p, d) -> i = j;
  l_members : forall a, In a (gkeys (subs s)) <-> In a (members os);
  l_leaving : forall a, In a (gkeys (stopping s)) <-> In a (leaving os);
  l_keys : NoDup (gkeys (subs s))
}.

Lemma members_snoc : forall os o, members (os ++ [o]) =
  match o with Up _ a => members os ++ [a] | Remove a => filter (fun b => negb (Nat.eqb b a)) (members os) | _ => members os end.
Proof.
  intros os o. unfold members. rewrite joined_snoc. destruct o; cbn [next_joined]; try reflexivity.
  - now rewrite map_app.
  - induction (joined os) as [|[k b] l IH]; [reflexivity|]. cbn. destruct (Nat.eqb b a); cbn; now rewrite IH.
Qed.
Lemma gkeys_app : forall V (d e : list (nat * V)), gkeys (d ++ e) = gkeys d ++ gkeys e.
Proof. intros. unfold gkeys. apply map_app. Qed.
Lemma gget_app_r : forall V (d : list (nat * V)) k v a p, gget geq (d ++ [(k, v)]) a = Some p -> gget geq d a = Some p \/ (a = k /\ p = v).
Proof.
  induction d as [|[k0 v0] d IH]; intros k v a p G; cbn in G.
  - destruct (Nat.eqb_spec k a); [|discriminate]. right. split; congruence.
  - cbn. destruct (Nat.eqb_spec k0 a); [now left|]. now apply IH.
Qed.
Lemma gget_app_l : forall V (d e : list (nat * V)) a p, gget geq d a = Some p -> gget geq (d ++ e) a = Some p.
Proof. induction d as [|[k0 v0] d IH]; intros e a p G; cbn in *; [discriminate|]. destruct (Nat.eqb k0 a); auto. Qed.
Lemma gget_app_new : forall V (d : list (nat * V)) k v, ~ In k (gkeys d) -> gget geq (d ++ [(k, v)]) k = Some v.
Proof.
  induction d as [|[k0 v0] d IH]; intros k v N; cbn in *; [now rewrite Nat.eqb_refl|].
  destruct (Nat.eqb_spec k0 k); [tauto|]. apply IH. tauto.
Qed.
Lemma gget_key : forall V (d : list (nat * V)) k v, gget geq d k = Some v -> In k (gkeys d).
Proof. intros V d k v G. apply (gget_In geq gsp) in G. apply in_map_iff. now exists (k, v). Qed.
Lemma filter_ne : forall a b l, In b (filter (fun b => negb (Nat.eqb b a)) l) <-> b <> a /\ In b l.
Proof. intros a b l. rewrite filter_In, negb_true_iff, Nat.eqb_neq. tauto. Qed.
Lemma not_proc : forall p l, ~ In p (procs l) -> forall i c, gget geq l i = Some (p, c) -> False.
Proof. intros p l N i c G. apply N. apply (gget_In geq gsp) in G. apply in_map_iff. exists (i, (p, c)). auto. Qed.

Ltac proj := cbn [cfg subs views home dead starting stopping restarting tasks wire].
Lemma alive_run : forall i0 m os s, run (initial i0 m) os = Some s -> tidy m os -> (forall o, In o os -> calm o) -> alive os s.
Proof.
  intros i0 m. induction os as [|o os IH] using rev_ind; intros s R T C.
  - injection R as <-. split; cbn; try discriminate; try tauto; try reflexivity. constructor.
  - apply run_snoc in R as (s1 & R & A). apply tidy_snoc in T as [T To].
    assert (Co : calm o) by (apply C, in_or_app; right; now left).
    destruct (IH s1 R T) as [Lr Ls Lt La Lh Lst Lp Lm Ll Lk]; [intros; apply C, in_or_app; now left|]. clear IH C.
    destruct o as [i e p|i a|i|a|a|a p|a|n|n|p|a p|a]; cbn [apply] in A; cbn in Co; try tauto.
    + destruct_if A G; [discriminate|]. injection A as <-.
      apply orb_false_iff in G as [G G4]. apply orb_false_iff in G as [G G3]. apply orb_false_iff in G as [G1 G2].
      apply memb_not in G2, G3, G4. rewrite map_app in G3.
      split; proj; auto.
      * intros j q c Gj. rewrite (gget_gset geq gsp) in Gj. destruct (Nat.eqb_spec i j); [injection Gj as <- <-|eauto].
        split; [now apply (gget_None geq gsp)|exact G4].
      * intros j k q c d Gj Gk. rewrite (gget_gset geq gsp) in Gj, Gk.
        assert (Np : ~ In p (procs (starting s1))) by (intros I; apply G3, in_or_app; now left).
        destruct (Nat.eqb_spec i j), (Nat.eqb_spec i k); subst; auto.
        -- injection Gj as <- <-. exfalso. eapply not_proc; eauto.
        -- injection Gk as <- <-. exfalso. eapply not_proc; eauto.
        -- eauto.
      * intros b. rewrite members_snoc. apply Lm.
      * intros b. rewrite leaving_snoc. apply Ll.
    + destruct (gget geq (starting s1) i) as [[p c]|] eqn:G; [|discriminate]. injection A as <-.
      cbn in To. destruct To as (T1 & T2 & T3 & _). destruct (Lst i p c G) as [Hp Dp].
      assert (Na : ~ In a (gkeys (subs s1))) by now rewrite Lm.
      assert (Ns : ~ In a (gkeys (stopping s1))) by now rewrite Ll.
      split; proj; auto.
      * intros b q Gb. rewrite (gget_gset geq gsp) in Gb. rewrite !(gget_gset geq gsp). destruct (Nat.eqb_spec a b).
        -- injection Gb as <-. subst. rewrite Nat.eqb_refl. repeat split; congruence || auto.
        -- destruct (Ls b q Gb) as (H1 & H2 & H3). destruct (Nat.eqb_spec p q); [congruence|auto].
      * intros b q Gb. rewrite (gget_gset geq gsp). apply Lt in Gb. destruct (Nat.eqb_spec p q); [congruence|auto].
      * intros b Ib. rewrite (gkeys_gset geq gsp). specialize (La b Ib). intros [->|I]; tauto.
      * intros q b Gq. rewrite (gget_gset geq gsp) in Gq. rewrite (gget_gset geq gsp). destruct (Nat.eqb_spec p q).
        -- injection Gq as <-. subst. rewrite Nat.eqb_refl. auto.
        -- destruct (Lh q b Gq) as [D|[S1|S1]]; auto. destruct (Nat.eqb_spec a b) as [->|]; auto.
           exfalso. apply Na. eapply gget_key; eauto.
      * intros j q d Gj. apply (same_start (fun _ => True)) in Gj as [Gj Nj]. destruct (Lst j q d Gj) as [Hq Dq].
        rewrite (gget_gset geq gsp). destruct (Nat.eqb_spec p q) as [->|]; [|auto]. exfalso. apply Nj. eapply Lp; eauto.
      * intros j k q d1 d2 Gj Gk. apply (same_start (fun _ => True)) in Gj as [Gj _], Gk as [Gk _]. eauto.
      * intros b. rewrite members_snoc, (gkeys_gset geq gsp), in_app_iff, Lm. cbn. intuition.
      * intros b. rewrite leaving_snoc. apply Ll.
      * now apply (NoDup_gset geq gsp).
    + destruct (gget geq (subs s1) a) as [p|] eqn:Ga; [|discriminate]. destruct (index_of (cfg s1) a) as [i|]; [|discriminate]. injection A as <-.
      assert (Ns : ~ In a (gkeys (stopping s1))) by (intros I; apply (La a I); eapply gget_key; eauto).
      split; proj; auto.
      * intros b q Gb. rewrite (gget_gdel geq gsp) in Gb. destruct (Nat.eqb_spec a b); [discriminate|auto].
      * intros b q Gb. apply gget_app_r in Gb as [Gb|[-> ->]]; [auto|]. now apply Ls.
      * intros b Ib. rewrite gkeys_app, in_app_iff in Ib. rewrite (gkeys_gdel geq gsp). cbn in Ib.
        destruct Ib as [Ib|[<-|[]]]; [|tauto]. specialize (La b Ib). tauto.
      * intros q b Gq. rewrite (gget_gdel geq gsp). destruct (Lh q b Gq) as [D|[S1|S1]]; auto.
        -- destruct (Nat.eqb_spec a b) as [->|]; auto. right; right. rewrite gget_app_new by auto. congruence.
        -- right; right. now apply gget_app_l.
      * intros b. rewrite members_snoc, (gkeys_gdel geq gsp), filter_ne, Lm. tauto.
      * intros b. rewrite leaving_snoc, gkeys_app, in_app_iff. cbn [next_leaving]. rewrite in_app_iff, Ll. cbn. tauto.
      * now apply (NoDup_gdel geq gsp).
    + destruct (gget geq (stopping s1) a) as [p|] eqn:Ga; [|discriminate]. injection A as <-.
      split; proj; auto.
      * intros b q Gb. destruct (Ls b q Gb) as (H1 & H2 & H3). repeat split; auto. intros [->|I]; [|tauto].
        assert (Ga' := Lt a q Ga). assert (a = b) by congruence. subst. apply (La b); eapply gget_key; eauto.
      * intros b q Gb. rewrite (gget_gdel geq gsp) in Gb. destruct (Nat.eqb_spec a b); [discriminate|auto].
      * intros b Ib. apply (gkeys_gdel geq gsp) in Ib as [_ Ib]. auto.
      * intros q b Gq. rewrite (gget_gdel geq gsp). destruct (Lh q b Gq) as [D|[S1|S1]]; [left; now right|auto|].
        destruct (Nat.eqb_spec a b) as [->|]; auto. left. left. congruence.
      * intros j q c Gj. destruct (Lst j q c Gj) as [Hq Dq]. split; auto. intros [->|I]; [|tauto]. apply Lt in Ga. congruence.
      * intros b. rewrite members_snoc. apply Lm.
      * intros b. rewrite leaving_snoc. cbn [next_leaving]. rewrite (gkeys_gdel geq gsp), filter_ne, Ll. tauto.
    + destruct (gget geq (home s1) p); [|discriminate]. destruct_if A G; [|discriminate]. injection A as <-.
      split; proj; auto; intros b; rewrite ?members_snoc, ?leaving_snoc; auto.
    + destruct_if A G; [|discriminate]. injection A as <-.
      split; proj; auto; intros b; rewrite ?members_snoc, ?leaving_snoc; auto.
    + destruct (nth_error (wire s1) n) as [[p c]|]; [|discriminate]. injection A as <-.
      split; proj; auto; try (intros b; rewrite ?members_snoc, ?leaving_snoc; now auto).
      intros b q Gb. destruct (Ls b q Gb) as (H1 & H2 & H3). repeat split; auto. rewrite (gget_gset geq gsp). destruct (Nat.eqb p q); congruence.
    + destruct (nth_error (wire s1) n) as [[p c]|]; [|discriminate]. injection A as <-.
      split; proj; auto; intros b; rewrite ?members_snoc, ?leaving_snoc; auto.
Qed.

(** ** What workers know *)
Definition lastview (s : state) (p : nat) : option config :=
  match rev (filter (fun e => Nat.eqb (fst e) p) (wire s)) with
  | (_, c) :: _ => Some c
  | [] => gget geq (views s) p
  end.

Lemma drop_nth_spec : forall A (l : list A) n x, nth_error l n = Some x ->
  exists l1 l2, l = l1 ++ x :: l2 /\ drop_nth n l = l1 ++ l2 /\ length l1 = n.
Proof.
  induction l as [|y l IH]; intros n x E; destruct n; cbn in E; try discriminate.
  - injection E as ->. exists [], l. auto.
  - destruct (IH n x E) as (l1 & l2 & -> & D & L). exists (y :: l1), l2. cbn. rewrite D, L. auto.
Qed.
Lemma drop_first_In : forall a b l, b <> a -> In b l -> In b (drop_first a l).
Proof.
  induction l as [|c l IH]; intros N I; [destruct I|]. cbn. destruct (Nat.eqb_spec c a) as [->|Nc].
  - destruct I as [I|I]; [congruence|exact I].
  - destruct I as [->|I]; [now left|right; auto].
Qed.
Lemma drop_first_sub : forall a b l, In b (drop_first a l) -> In b l.
Proof. induction l as [|c l IH]; intros I; [destruct I|]. cbn in I. destruct (Nat.eqb c a); [now right|]. destruct I as [->|I]; [now left|right; auto]. Qed.

Lemma filter_none : forall A (f : A -> bool) l, (forall x, In x l -> f x = false) -> filter f l = [].
Proof. induction l as [|x l IH]; intros H; [reflexivity|]. cbn. rewrite (H x (or_introl eq_refl)). apply IH. intros; apply H; now right. Qed.
Lemma nonempty_rev : forall A (l : list A) x, rev l ++ [x] = match rev l with [] => [x] | y :: r => y :: r ++ [x] end.
Proof. intros A l x. now destruct (rev l). Qed.

Definition always_calm (P : state -> op -> Prop) : Prop := forall s o, P s o -> calm o.
Lemma always_run_calm : forall P os i0 m s, always_calm P -> run (initial i0 m) os = Some s -> always P (initial i0 m) os ->
  forall o, In o os -> calm o.
Proof.
  intros P os i0 m. induction os as [|o os IH] using rev_ind; intros s AC R A x I; [destruct I|].
  apply run_snoc in R as (s1 & R & _). apply always_snoc in A as [A B].
  apply in_app_or in I as [I|[<-|[]]]; [eauto|]. eapply AC. eauto.
Qed.
Lemma smooth_calm : always_calm smooth_op.
Proof. intros s o. destruct o; cbn; tauto. Qed.
Lemma single_calm : always_calm single_op.
Proof. intros s o. destruct o; cbn; tauto. Qed.

Definition informed (s : state) : Prop := forall a p, gget geq (subs s) a = Some p ->
  In a (tasks s) \/ starting s <> [] \/ stopping s <> [] \/ lastview s p = Some (cfg s).

Lemma gset_nonempty : forall V (d : list (nat * V)) k v, gset geq d k v <> [].
Proof. intros V [|[k0 v0] d] k v; cbn; [discriminate|]. destruct (Nat.eqb k0 k); discriminate. Qed.

Lemma informed_run : forall i0 m os s, run (initial i0 m) os = Some s -> tidy m os -> always smooth_op (initial i0 m) os -> informed s.
Proof.
  intros i0 m. induction os as [|o os IH] using rev_ind; intros s R T C.
  - injection R as <-. intros a p G. discriminate.
  - assert (Cc := always_run_calm _ _ _ _ _ smooth_calm R C).
    apply run_snoc in R as (s1 & R & A). apply tidy_snoc in T as [T To]. apply always_snoc in C as [C Co]. specialize (Co s1 R).
    assert (L : alive os s1) by (eapply alive_run; eauto; intros; apply Cc, in_or_app; now left).
    specialize (IH s1 R T C). intros b q G.
    destruct o as [i e p|i a|i|a|a|a p|a|n|n|p|a p|a]; cbn [apply] in A; cbn in Co; try tauto.
    + destruct_if A X; [discriminate|]. injection A as <-. right; left. apply gset_nonempty.
    + destruct (gget geq (starting s1) i) as [[p c]|] eqn:X; [|discriminate]. injection A as <-. left. cbn [tasks subs] in *.
      apply in_or_app. right. eapply gget_key; eauto.
    + destruct (gget geq (subs s1) a) as [p|] eqn:Ga; [|discriminate]. destruct (index_of (cfg s1) a) as [i|]; [|discriminate]. injection A as <-.
      right; right; left. cbn. destruct (stopping s1); discriminate.
    + destruct (gget geq (stopping s1) a) as [p|] eqn:Ga; [|discriminate]. injection A as <-. left. cbn [tasks subs] in *.
      apply in_or_app. right. eapply gget_key; eauto.
    + destruct (gget geq (home s1) p) as [b'|] eqn:Hp; [|discriminate]. destruct_if A X; [|discriminate]. injection A as <-.
      apply andb_true_iff in X as [X X3]. apply andb_true_iff in X as [X1 X2]. apply Nat.eqb_eq in X1. subst b'.
      apply negb_true_iff, memb_not in X3. cbn [subs tasks starting stopping cfg] in *.
      destruct (Nat.eq_dec b a) as [->|Nb].
      * assert (p = q); [|subst q].
        { destruct (l_home _ _ L p a Hp) as [D|[S1|S1]]; [tauto|congruence|].
          exfalso. apply (l_apart _ _ L a); eapply gget_key; eauto. }
        right; right; right. unfold lastview. cbn [wire]. rewrite filter_app, rev_app_distr. cbn. now rewrite Nat.eqb_refl.
      * destruct (IH b q G) as [I|[I|[I|I]]]; auto.
        -- left. now apply drop_first_In.
        -- right; right; right. rewrite <- I. unfold lastview. cbn [wire views]. rewrite filter_app. cbn.
           destruct (Nat.eqb_spec p q) as [->|]; [|now rewrite app_nil_r].
           exfalso. apply Nb. destruct (l_subs _ _ L b q G) as [H _]. congruence.
    + destruct_if A X; [|discriminate]. injection A as <-. cbn [subs tasks starting stopping cfg] in *.
      destruct (IH b q G) as [I|[I|[I|I]]]; auto. left. apply drop_first_In; auto. intros ->. apply Co. eapply gget_key; eauto.
    + destruct (nth_error (wire s1) n) as [[p c]|] eqn:X; [|discriminate]. injection A as <-. cbn [subs tasks starting stopping cfg] in *.
      destruct (IH b q G) as [I|[I|[I|I]]]; auto. right; right; right. rewrite <- I. unfold lastview. cbn [wire views].
      destruct (drop_nth_spec _ _ _ _ X) as (l1 & l2 & E & D & Ln). rewrite D.
      assert (F : forall p' c', In (p', c') l1 -> p' <> p).
      { intros p' c' I' ->. apply In_nth_error in I' as [k K].
        assert (k < n) by (rewrite <- Ln; apply nth_error_Some; congruence).
        eapply (Co p c X k c'); auto. rewrite E, nth_error_app1; [exact K|lia]. }
      rewrite E, !filter_app. cbn [filter fst]. rewrite (gget_gset geq gsp). destruct (Nat.eqb_spec p q) as [->|Np]; [|reflexivity].
      rewrite (filter_none _ _ l1); [|intros [p' c'] I'; cbn; apply Nat.eqb_neq; eauto]. cbn [app rev].
      rewrite nonempty_rev. now destruct (rev (filter (fun e => Nat.eqb (fst e) q) l2)) as [|[? ?] ?].
    + destruct (nth_error (wire s1) n) as [[p c]|] eqn:X; [|discriminate]. injection A as <-. cbn [subs tasks starting stopping cfg] in *.
      destruct (IH b q G) as [I|[I|[I|I]]]; auto. right; right; right. rewrite <- I. unfold lastview. cbn [wire views].
      destruct (drop_nth_spec _ _ _ _ X) as (l1 & l2 & E & D & Ln). rewrite D, E, !filter_app. cbn [filter fst].
      destruct (Nat.eqb_spec p q) as [->|]; [|reflexivity]. exfalso. apply (Co q c eq_refl).
      apply (gget_In geq gsp) in G. apply in_map_iff. exists (b, q). auto.
Qed.

(** One operation at a time *)
Record serial (s : state) : Prop := {
  e_one : length (starting s) + length (stopping s) <= 1;
  e_busy : starting s <> [] \/ stopping s <> [] -> tasks s = [] /\ wire s = [];
  e_wire : starting s = [] -> stopping s = [] -> forall p c, In (p, c) (wire s) -> c = cfg s;
  e_view : forall a p, gget geq (subs s) a = Some p -> In a (tasks s) \/ starting s <> [] \/ stopping s <> [] \/
             In (p, cfg s) (wire s) \/ gget geq (views s) p = Some (cfg s)
}.

Lemma gdel_le : forall V (d : list (nat * V)) k, length (gdel geq d k) <= length d.
Proof. induction d as [|[k0 v] d IH]; intros k; cbn; [lia|]. specialize (IH k). destruct (Nat.eqb k0 k); cbn; lia. Qed.
Lemma gdel_lt : forall V (d : list (nat * V)) k v, gget geq d k = Some v -> length (gdel geq d k) < length d.
Proof.
  induction d as [|[k0 v0] d IH]; intros k v G; cbn in *; [discriminate|].
  destruct (Nat.eqb k0 k); cbn; [pose proof (gdel_le _ d k); lia|specialize (IH k v G); lia].
Qed.
Lemma length0 : forall A (l : list A), length l = 0 -> l = [].
Proof. intros A [|]; cbn; [auto|lia]. Qed.

Lemma serial_run : forall i0 m os s, run (initial i0 m) os = Some s -> tidy m os -> always single_op (initial i0 m) os -> serial s.
Proof.
  intros i0 m. induction os as [|o os IH] using rev_ind; intros s R T C.
  - injection R as <-. split; cbn; try tauto; try lia; discriminate.
  - assert (Cc := always_run_calm _ _ _ _ _ single_calm R C).
    apply run_snoc in R as (s1 & R & A). apply tidy_snoc in T as [T To]. apply always_snoc in C as [C Co]. specialize (Co s1 R).
    assert (L : alive os s1) by (eapply alive_run; eauto; intros; apply Cc, in_or_app; now left).
    destruct (IH s1 R T C) as [E1 E2 E3 E4]. clear IH.
    destruct o as [i e p|i a|i|a|a|a p|a|n|n|p|a p|a]; cbn [apply] in A; cbn in Co; try tauto.
    + destruct_if A X; [discriminate|]. injection A as <-. destruct Co as (Q1 & Q2 & Q3 & Q4 & Q5). rewrite Q1, Q2, Q4, Q5.
      split; cbn; auto; try discriminate. intros b q G. right; left; discriminate.
    + destruct (gget geq (starting s1) i) as [[p c]|] eqn:X; [|discriminate]. injection A as <-.
      destruct E2 as [E2 E2']; [left; intros E; rewrite E in X; discriminate|]. rewrite E2, E2'.
      assert (Lt := gdel_lt _ _ _ _ X). rewrite (length0 _ (gdel geq (starting s1) i)) by lia. rewrite (length0 _ (stopping s1)) by lia.
      split; cbn; auto; try tauto.
      intros b q G. left. eapply gget_key; eauto.
    + destruct (gget geq (subs s1) a) as [p|] eqn:Ga; [|discriminate]. destruct (index_of (cfg s1) a) as [i|]; [|discriminate]. injection A as <-.
      destruct Co as (Q1 & Q2 & Q3 & Q4 & Q5). rewrite Q1, Q2, Q4, Q5.
      split; cbn; auto; try discriminate. intros b q G. right; right; left; discriminate.
    + destruct (gget geq (stopping s1) a) as [p|] eqn:X; [|discriminate]. injection A as <-.
      destruct E2 as [E2 E2']; [right; intros E; rewrite E in X; discriminate|]. rewrite E2, E2'.
      assert (Lt := gdel_lt _ _ _ _ X). rewrite (length0 _ (gdel geq (stopping s1) a)) by lia. rewrite (length0 _ (starting s1)) by lia.
      split; cbn; auto; try tauto.
      intros b q G. left. eapply gget_key; eauto.
    + destruct (gget geq (home s1) p) as [b'|] eqn:Hp; [|discriminate]. destruct_if A X; [|discriminate]. injection A as <-.
      apply andb_true_iff in X as [X X3]. apply andb_true_iff in X as [X1 X2]. apply Nat.eqb_eq in X1. subst b'.
      apply negb_true_iff, memb_not in X3. apply memb_In in X2.
      split; cbn; auto.
      * intros B. apply E2 in B as [B _]. rewrite B in X2. destruct X2.
      * intros S1 S2 q c I. apply in_app_or in I as [I|[I|[]]]; [eauto|congruence].
      * intros b q G. destruct (Nat.eq_dec b a) as [->|Nb].
        -- right; right; right; left. apply in_or_app. right. left. f_equal.
           destruct (l_home _ _ L p a Hp) as [D|[S1|S1]]; [tauto|congruence|].
           exfalso. apply (l_apart _ _ L a); eapply gget_key; eauto.
        -- destruct (E4 b q G) as [I|[I|[I|[I|I]]]]; auto.
           ++ left. now apply drop_first_In.
           ++ right; right; right; left. apply in_or_app. now left.
    + destruct_if A X; [|discriminate]. injection A as <-. apply memb_In in X.
      split; cbn; auto.
      * intros B. apply E2 in B as [B _]. rewrite B in X. destruct X.
      * intros b q G. destruct (E4 b q G) as [I|[I|[I|I]]]; auto. left. apply drop_first_In; auto. intros ->. apply Co. eapply gget_key; eauto.
    + destruct (nth_error (wire s1) n) as [[p c]|] eqn:X; [|discriminate]. injection A as <-.
      destruct (drop_nth_spec _ _ _ _ X) as (l1 & l2 & E & D & Ln). rewrite D.
      assert (Ec : c = cfg s1).
      { assert (I : In (p, c) (wire s1)) by (eapply nth_error_In; eauto).
        destruct (starting s1) as [|x1 st] eqn:S1; [destruct (stopping s1) as [|x2 st] eqn:S2|].
        - eauto.
        - destruct E2 as [_ E2]; [right; discriminate|]. rewrite E2 in I. destruct I.
        - destruct E2 as [_ E2]; [left; discriminate|]. rewrite E2 in I. destruct I. }
      subst c.
      split; cbn; auto.
      * intros B. apply E2 in B as [B1 B2]. rewrite E in B2. destruct l1; discriminate.
      * intros S1 S2 q c I. apply (E3 S1 S2 q). rewrite E. apply in_app_or in I as [I|I]; apply in_or_app; [now left|right; now right].
      * intros b q G. destruct (E4 b q G) as [I|[I|[I|[I|I]]]]; auto.
        -- rewrite E in I. apply in_app_or in I as [I|[I|I]].
           ++ right; right; right; left. apply in_or_app. now left.
           ++ injection I as ->. right; right; right; right. rewrite (gget_gset geq gsp). now rewrite Nat.eqb_refl.
           ++ right; right; right; left. apply in_or_app. now right.
        -- right; right; right; right. rewrite (gget_gset geq gsp). now destruct (Nat.eqb p q).
    + destruct (nth_error (wire s1) n) as [[p c]|] eqn:X; [|discriminate]. injection A as <-.
      destruct (drop_nth_spec _ _ _ _ X) as (l1 & l2 & E & D & Ln). rewrite D.
      split; cbn; auto.
      * intros B. apply E2 in B as [B1 B2]. rewrite E in B2. destruct l1; discriminate.
      * intros S1 S2 q d I. apply (E3 S1 S2 q). rewrite E. apply in_app_or in I as [I|I]; apply in_or_app; [now left|right; now right].
      * intros b q G. destruct (E4 b q G) as [I|[I|[I|[I|I]]]]; auto.
        rewrite E in I. apply in_app_or in I as [I|[I|I]].
        -- right; right; right; left. apply in_or_app. now left.
        -- exfalso. injection I as -> ->. apply (Co q (cfg s1) eq_refl). apply (gget_In geq gsp) in G. apply in_map_iff. exists (b, q). auto.
        -- right; right; right; left. apply in_or_app. now right.
Qed.

(** ** Everything that is under way can end *)
Lemma tidy_add : forall m os o, tidy m os -> tidy_op m os o -> tidy m (os ++ [o]).
Proof.
  intros m os o T To os1 x os2 E. destruct os2 as [|y os2] using rev_ind.
  - apply app_inj_tail in E as [-> ->]. exact To.
  - clear IHos2. rewrite app_comm_cons, app_assoc in E. apply app_inj_tail in E as [E ->]. eapply T; eauto.
Qed.
Lemma always_add : forall P os o s s1, always P s os -> run s os = Some s1 -> P s1 o -> always P s (os ++ [o]).
Proof.
  intros P. induction os as [|x os IH]; intros o s s1 A R H; cbn [app always run] in *.
  - injection R as ->. split; [exact H|]. intros; exact Logic.I.
  - destruct A as [A B]. split; [exact A|]. intros s' E. rewrite E in R. eapply IH; eauto.
Qed.

Section Finish.
  Variables i0 m : nat.
  Definition valid (os : list op) (s : state) : Prop :=
    run (initial i0 m) os = Some s /\ tidy m os /\ always smooth_op (initial i0 m) os.
  Definition ends (o : op) : Prop := match o with Up _ _ | Stopped _ | Send _ _ | Unsent _ | Deliver _ => True | _ => False end.

  Lemma valid_step : forall os s o s', valid os s -> apply s o = Some s' -> tidy_op m os o -> smooth_op s o -> valid (os ++ [o]) s'.
  Proof.
    intros os s o s' (R & T & A) E To So. repeat split.
    - rewrite run_app, R. cbn. now rewrite E.
    - now apply tidy_add.
    - eapply always_add; eauto.
  Qed.
  Lemma valid_alive : forall os s, valid os s -> alive os s.
  Proof. intros os s (R & T & A). eapply alive_run; eauto. intros o I. eapply always_run_calm; eauto. apply smooth_calm. Qed.

  Definition done_from (os : list op) : Prop :=
    exists os' s', valid (os ++ os') s' /\ quiet s' /\ (forall o, In o os' -> ends o).
  Lemma done_step : forall os o, ends o -> done_from (os ++ [o]) -> done_from os.
  Proof.
    intros os o En (os' & s' & V & Q & F). exists (o :: os'), s'. rewrite <- app_assoc in V. repeat split; auto; try apply V; try apply Q.
    intros x [<-|I]; auto.
  Qed.

  Lemma finish_wire : forall n os s, valid os s -> starting s = [] -> stopping s = [] -> tasks s = [] -> length (wire s) = n -> done_from os.
  Proof.
    induction n as [|n IH]; intros os s V S1 S2 S3 L.
    - exists [], s. rewrite app_nil_r. split; [exact V|]. split; [|intros o []].
      repeat split; auto; [apply (l_restart _ _ (valid_alive os s V))|now apply length0].
    - destruct (wire s) as [|[p c] w] eqn:W; [discriminate|]. apply (done_step _ (Deliver 0)); [exact Logic.I|].
      eapply IH.
      + eapply valid_step; [exact V|cbn [apply]; rewrite W; reflexivity|exact Logic.I|]. cbn. intros p' c' _ k c'' K. lia.
      + exact S1.
      + exact S2.
      + exact S3.
      + cbn. now injection L.
  Qed.
  Lemma finish_tasks : forall n os s, valid os s -> starting s = [] -> stopping s = [] -> length (tasks s) = n -> done_from os.
  Proof.
    induction n as [|n IH]; intros os s V S1 S2 L.
    - eapply finish_wire; eauto. now apply length0.
    - destruct (tasks s) as [|a l] eqn:W; [discriminate|]. assert (A := valid_alive os s V).
      destruct (gget geq (subs s) a) as [p|] eqn:G.
      + destruct (l_subs _ _ A a p G) as (H1 & H2 & H3). apply (done_step _ (Send a p)); [exact Logic.I|]. eapply IH.
        * eapply valid_step; [exact V| |exact Logic.I|exact Logic.I]. cbn [apply]. rewrite H1, W, Nat.eqb_refl.
          replace (memb a (a :: l)) with true by (symmetry; apply memb_In; now left). replace (memb p (dead s)) with false by (symmetry; now apply memb_not). reflexivity.
        * exact S1.
        * exact S2.
        * cbn. rewrite Nat.eqb_refl. now injection L.
      + apply (done_step _ (Unsent a)); [exact Logic.I|]. eapply IH.
        * eapply valid_step; [exact V| |exact Logic.I|]. 
          -- cbn [apply]. rewrite W. replace (memb a (a :: l)) with true by (symmetry; apply memb_In; now left). reflexivity.
          -- cbn [smooth_op]. now apply (gget_None geq gsp).
        * exact S1.
        * exact S2.
        * cbn. rewrite Nat.eqb_refl. now injection L.
  Qed.
  Lemma finish_stopping : forall n os s, valid os s -> starting s = [] -> length (stopping s) <= n -> done_from os.
  Proof.
    induction n as [|n IH]; intros os s V S1 L.
    - eapply finish_tasks; eauto. apply length0. lia.
    - destruct (stopping s) as [|[a p] l] eqn:W; [eapply finish_tasks; eauto|]. apply (done_step _ (Stopped a)); [exact Logic.I|].
      assert (G : gget geq (stopping s) a = Some p) by (rewrite W; cbn; now rewrite Nat.eqb_refl).
      eapply IH.
      + eapply valid_step; [exact V|cbn [apply]; rewrite G; reflexivity|exact Logic.I|exact Logic.I].
      + exact S1.
      + cbn [stopping]. apply gdel_lt in G. rewrite W in *. cbn [length] in *. lia.
  Qed.
  Lemma above : forall l : list nat, exists a, forall b, In b l -> b < a.
  Proof.
    induction l as [|x l [a IH]]; [exists 0; intros b []|]. exists (S (max a x)). intros b [->|I]; [lia|]. specialize (IH b I). lia.
  Qed.
  Lemma finish_starting : forall n os s, valid os s -> length (starting s) <= n -> done_from os.
  Proof.
    induction n as [|n IH]; intros os s V L.
    - eapply finish_stopping; eauto. apply length0. lia.
    - destruct (starting s) as [|[i [p c]] l] eqn:W; [eapply finish_stopping; eauto|].
      destruct (above (m :: members os ++ leaving os ++ reals (waiting os))) as [a Ha].
      assert (G : gget geq (starting s) i = Some (p, c)) by (rewrite W; cbn; now rewrite Nat.eqb_refl).
      apply (done_step _ (Up i a)); [exact Logic.I|]. eapply IH.
      + eapply valid_step; [exact V|cbn [apply]; rewrite G; reflexivity| |exact Logic.I]. cbn [tidy_op].
        assert (Lt : forall b, In b (m :: members os ++ leaving os ++ reals (waiting os)) -> b <> a) by (intros b I; specialize (Ha b I); lia).
        repeat split.
        * intros ->. apply (Lt m); [now left|reflexivity].
        * intros I. apply (Lt a); [|reflexivity]. right. apply in_or_app. now left.
        * intros I. apply (Lt a); [|reflexivity]. right. apply in_or_app. right. apply in_or_app. now left.
        * intros j I. exfalso. apply (Lt a); [|reflexivity]. right. apply in_or_app. right. apply in_or_app. right. apply reals_In. eauto.
      + cbn [starting]. apply gdel_lt in G. rewrite W in *. cbn [length] in *. lia.
  Qed.
End Finish.

Lemma waiting_starts : forall i0 m os s, run (initial i0 m) os = Some s -> (forall o, In o os -> calm o) ->
  forall i, In i (map fst (waiting os)) -> In i (gkeys (starting s)).
Proof.
  intros i0 m. induction os as [|o os IH] using rev_ind; intros s R C i I; [destruct I|].
  apply run_snoc in R as (s1 & R & A). assert (Co : calm o) by (apply C, in_or_app; right; now left).
  assert (IH' : forall i, In i (map fst (waiting os)) -> In i (gkeys (starting s1))) by (intros; eapply IH; eauto; intros; apply C, in_or_app; now left).
  rewrite waiting_snoc in I.
  destruct o as [j e p|j a|j|a|a|a p|a|n|n|p|a p|a]; cbn [apply] in A; cbn in Co; try tauto; cbn [next_waiting] in I.
  - destruct_if A X; [discriminate|]. injection A as <-. cbn [starting]. apply (gkeys_gset geq gsp). rewrite map_app in I.
    apply in_app_or in I as [I|[<-|[]]]; auto.
  - destruct (gget geq (starting s1) j) as [[p c]|]; [|discriminate]. injection A as <-. cbn [starting].
    apply in_map_iff in I as ([k e] & E & I). cbn in E. subst k. apply filter_In in I as [I F]. cbn in F. apply negb_true_iff, Nat.eqb_neq in F.
    apply (gkeys_gdel geq gsp). split; [exact F|]. apply IH'. apply in_map_iff. exists (i, e). auto.
  - destruct (gget geq (subs s1) a); [|discriminate]. destruct (index_of (cfg s1) a); [|discriminate]. injection A as <-. auto.
  - destruct (gget geq (stopping s1) a); [|discriminate]. injection A as <-. auto.
  - destruct (gget geq (home s1) p); [|discriminate]. destruct_if A X; [|discriminate]. injection A as <-. auto.
  - destruct_if A X; [|discriminate]. injection A as <-. auto.
  - destruct (nth_error (wire s1) n) as [[p c]|]; [|discriminate]. injection A as <-. auto.
  - destruct (nth_error (wire s1) n) as [[p c]|]; [|discriminate]. injection A as <-. auto.
Qed.

(** An entry of an append that failed is never taken out. *)
Definition phantom (s : state) (i : nat) : Prop :=
  In (i, Unknown) (cfg s) /\ NoDup (gkeys (cfg s)) /\ gget geq (starting s) i = None.
Lemma phantom_stays : forall os s s' i, run s os = Some s' -> phantom s i -> phantom s' i.
Proof.
  induction os as [|o os IH]; intros s s' i R P; cbn [run] in R; [injection R as <-; auto|].
  destruct (apply s o) as [s1|] eqn:A; [|discriminate]. apply (IH s1 s' i R). clear R IH. destruct P as (G & N & S).
  assert (Ik : In i (gkeys (cfg s))) by (apply in_map_iff; exists (i, Unknown); auto).
  unfold phantom.
  destruct o as [j e p|j a|j|a|a|a p|a|n|n|p|a p|a]; cbn [apply] in A.
  - destruct_if A X; [discriminate|]. injection A as <-. cbn [cfg starting].
    apply orb_false_iff in X as [X _]. apply orb_false_iff in X as [X _]. apply orb_false_iff in X as [X _]. apply memb_not in X.
    split; [apply in_or_app; now left|]. split.
    + rewrite gkeys_app. apply (Permutation_NoDup (Permutation_cons_append (gkeys (cfg s)) j)). now constructor.
    + rewrite (gget_gset geq gsp). destruct (Nat.eqb_spec j i) as [->|]; [tauto|exact S].
  - destruct (gget geq (starting s) j) as [[p c]|] eqn:Gj; [|discriminate]. injection A as <-. cbn [cfg starting]. unfold reset.
    assert (j <> i) by (intros ->; congruence). split; [|split].
    + apply (In_gset geq gsp); auto.
    + now apply (NoDup_gset geq gsp).
    + rewrite (gget_gdel geq gsp). destruct (Nat.eqb j i); auto.
  - destruct (gget geq (starting s) j) as [[p c]|] eqn:Gj; [|discriminate]. injection A as <-. cbn [cfg starting].
    rewrite (gget_gdel geq gsp). destruct (Nat.eqb j i); auto.
  - destruct (gget geq (subs s) a); [|discriminate]. destruct (index_of (cfg s) a) as [j|] eqn:X; [|discriminate]. injection A as <-.
    cbn [cfg starting]. apply index_of_In in X. split; [|split; [now apply (NoDup_gdel geq gsp)|exact S]].
    apply (In_gdel geq gsp). split; [|exact G]. intros <-. apply (gIn_get geq gsp _ _ _ N) in X, G. congruence.
  - destruct (gget geq (stopping s) a); [|discriminate]. injection A as <-. auto.
  - destruct (gget geq (home s) p); [|discriminate]. destruct_if A X; [|discriminate]. injection A as <-. auto.
  - destruct_if A X; [|discriminate]. injection A as <-. auto.
  - destruct (nth_error (wire s) n) as [[p c]|]; [|discriminate]. injection A as <-. auto.
  - destruct (nth_error (wire s) n) as [[p c]|]; [|discriminate]. injection A as <-. auto.
  - destruct (gget geq (home s) p); [|discriminate]. injection A as <-. auto.
  - destruct (gget geq (subs s) a); [|discriminate]. destruct (index_of (cfg s) a); [|discriminate].
    destruct_if A X; [|discriminate]. injection A as <-. auto.
  - destruct (gget geq (restarting s) a) as [[p c]|]; [|discriminate]. injection A as <-. auto.
Qed.
