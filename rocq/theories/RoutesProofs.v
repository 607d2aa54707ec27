(** Proofs about RoutesModel. *)
From Coq Require Import String List Bool Arith Lia.
From Verif Require Import Dict RouterModel RoutesModel RoutesSpec.
Import ListNotations.
Open Scope string_scope.
Open Scope list_scope.

Lemma of_table_get : forall t a, of_table t a = gget String.eqb t a.
Proof.
  intros t a. unfold of_table. induction t as [|[k v] t IH]; [reflexivity|]. cbn [find fst gget].
  destruct (String.eqb k a); auto.
Qed.

Lemma update_get : forall V (e d : list (addr * V)) a, NoDup (map fst e) ->
  gget String.eqb (update d e) a = match gget String.eqb e a with Some v => Some v | None => gget String.eqb d a end.
Proof.
  intros V e. unfold update. induction e as [|[k v] e IH]; intros d a N; [reflexivity|]. cbn [fold_left fst snd gget map] in *.
  inversion N as [|? ? N1 N2]; subst. rewrite IH by auto. rewrite (gget_gset _ String.eqb_spec).
  destruct (String.eqb_spec k a) as [->|Ne]; [|reflexivity].
  destruct (gget String.eqb e a) eqn:E; [|reflexivity].
  apply (gget_In _ String.eqb_spec) in E. elim N1. now apply (in_map fst) in E.
Qed.

Lemma pop_all_get : forall V W (e : list (addr * W)) (d : list (addr * V)) a,
  gget String.eqb (pop_all d e) a = match gget String.eqb e a with Some _ => None | None => gget String.eqb d a end.
Proof.
  intros V W e. unfold pop_all. induction e as [|[k v] e IH]; intros d a; [reflexivity|]. cbn [fold_left fst gget].
  rewrite IH, (gget_gdel _ String.eqb_spec). destruct (String.eqb k a), (gget String.eqb e a); reflexivity.
Qed.

Lemma local_get : forall q a,
  gget String.eqb (r_local (router_of q)) a = if in_dec string_dec a (own q) then Some (Some (loc q)) else None.
Proof.
  intros q a. cbn [r_local router_of].
  assert (G : forall l d, gget String.eqb (fold_left (fun d a => gset String.eqb d a (Some (loc q))) l d) a =
    if in_dec string_dec a l then Some (Some (loc q)) else gget String.eqb d a).
  { induction l as [|b l IH]; intros d; [reflexivity|]. cbn [fold_left]. rewrite IH, (gget_gset _ String.eqb_spec).
    destruct (in_dec string_dec a l) as [I|I], (in_dec string_dec a (b :: l)) as [J|J]; try reflexivity.
    - elim J. now right.
    - destruct (String.eqb_spec b a); [reflexivity|]. destruct J; [contradiction|contradiction].
    - destruct (String.eqb_spec b a); [|reflexivity]. elim J. now left. }
  apply G.
Qed.
Lemma local_keys : forall q, NoDup (own q) -> NoDup (map fst (r_local (router_of q))).
Proof.
  intros q _. cbn [r_local router_of].
  assert (G : forall l d, NoDup (map fst d) -> NoDup (map fst (fold_left (fun d a => gset String.eqb d a (Some (loc q))) l d))).
  { induction l as [|b l IH]; intros d N; [exact N|]. cbn [fold_left]. apply IH. now apply (NoDup_gset _ String.eqb_spec). }
  apply G. constructor.
Qed.

(** The model's pools are the world's. *)
Record same (q : pool) (v : view) : Prop := {
  s_own : own q = here v;
  s_loc : loc q = inproc v;
  s_tab : forall a, gget String.eqb (tab q) a = known v a;
  s_nd : NoDup (map fst (tab q));
  s_no : NoDup (own q) }.

Definition rel (s : state) (w : world) : Prop := forall p,
  match w p with Some v => exists q, get s p = Some q /\ same q v | None => get s p = None end.

Lemma run_snoc : forall os o, run (os ++ [o]) = apply (run os) o.
Proof. intros. unfold run. now rewrite fold_left_app. Qed.
Lemma after_snoc : forall os o, after (os ++ [o]) = happens (after os) o.
Proof. intros. unfold after. now rewrite fold_left_app. Qed.
Lemma orderly_snoc : forall os o, orderly (os ++ [o]) -> orderly os /\ proper (after os) o.
Proof.
  intros os o H. split.
  - intros os1 x os2 E. apply (H os1 x (os2 ++ [o])). now rewrite E, <- app_assoc.
  - now apply (H os o []).
Qed.
Lemma exclusive_snoc : forall os o a, exclusive (os ++ [o]) a -> exclusive os a.
Proof. intros os o a H os1 os2 E. apply (H os1 (os2 ++ [o])). now rewrite E, <- app_assoc. Qed.
Lemma exclusive_now : forall os a, exclusive os a -> forall p q, uses (after os) p a -> uses (after os) q a -> p = q.
Proof. intros os a H. apply (H os []). now rewrite app_nil_r. Qed.

Lemma upd_eq : forall w p v, upd w p v p = Some v.
Proof. intros. unfold upd. now rewrite Nat.eqb_refl. Qed.
Lemma upd_ne : forall w p v q, q <> p -> upd w p v q = w q.
Proof. intros w p v q H. unfold upd. apply Nat.eqb_neq in H. now rewrite H. Qed.

Lemma get_put : forall g s p q r, get {| global := g; pools := put s p q |} r = if Nat.eqb p r then Some q else get s r.
Proof. intros. unfold get, put. cbn [pools]. apply (gget_gset _ Nat.eqb_spec). Qed.

Lemma rel_put : forall s w p q v g, rel s w -> same q v -> rel {| global := g; pools := put s p q |} (upd w p v).
Proof.
  intros s w p q v g R S1 r. rewrite get_put. unfold upd.
  destruct (Nat.eqb_spec r p) as [->|N]; [rewrite Nat.eqb_refl; eauto|].
  destruct (Nat.eqb_spec p r); [congruence|]. exact (R r).
Qed.

Lemma rel_run : forall os, orderly os -> rel (run os) (after os).
Proof.
  induction os as [|o os IH] using rev_ind; intros O; [intros p; reflexivity|].
  destruct (orderly_snoc _ _ O) as [O1 P]. specialize (IH O1). rewrite run_snoc, after_snoc.
  destruct o as [p q|p a i|p a|p|p t|p]; cbn [apply happens proper] in *.
  - destruct P as (_ & P1 & P2 & P3). apply rel_put; [exact IH|]. constructor; cbn; auto. intros a. now rewrite of_table_get.
  - destruct P as (v & Ev & _). pose proof (IH p) as Y. rewrite Ev in *. destruct Y as (q & -> & [A B C D E]).
    apply rel_put; [exact IH|]. constructor; cbn; auto.
    + intros b. rewrite (gget_gset _ String.eqb_spec). rewrite String.eqb_sym. destruct (String.eqb b a); [reflexivity|apply C].
    + now apply (NoDup_gset _ String.eqb_spec).
  - destruct P as (v & Ev & _). pose proof (IH p) as Y. rewrite Ev in *. destruct Y as (q & -> & [A B C D E]).
    apply rel_put; [exact IH|]. constructor; cbn; auto.
    + intros b. rewrite (gget_gdel _ String.eqb_spec). rewrite String.eqb_sym. destruct (String.eqb b a); [reflexivity|apply C].
    + now apply (NoDup_gdel _ String.eqb_spec).
  - destruct P as (v & Ev & _). pose proof (IH p) as Y. rewrite Ev in *. destruct Y as (q & -> & [A B C D E]).
    intros r. unfold upd. destruct (Nat.eqb_spec r p) as [->|N]; [|exact (IH r)].
    pose proof (IH p) as Z. rewrite Ev in Z. destruct Z as (q1 & Z & [A1 B1 C1 D1 E1]). exists q1. split; [exact Z|]. constructor; auto.
  - destruct P as ((v & Ev & _) & N). pose proof (IH p) as Y. rewrite Ev in *. destruct Y as (q & -> & [A B C D E]).
    apply rel_put; [exact IH|]. constructor; cbn; auto. intros a. now rewrite of_table_get.
  - destruct P as (v & Ev & _). pose proof (IH p) as Y. rewrite Ev in *. destruct Y as (q & -> & [A B C D E]).
    intros r. unfold upd. destruct (Nat.eqb_spec r p) as [->|N]; [|exact (IH r)].
    pose proof (IH p) as Z. rewrite Ev in Z. destruct Z as (q1 & Z & [A1 B1 C1 D1 E1]). exists q1. split; [exact Z|]. constructor; auto.
Qed.

(** *** The own addresses of running pools *)
Definition has_here (w : world) (a : addr) (p : nat) (v : view) : Prop := w p = Some v /\ ph v = Running /\ In a (here v).

Definition local_ok (s : state) (w : world) (a : addr) : Prop :=
  (forall p v, has_here w a p v -> lookup (r_local (global s)) a = Some (Some (inproc v))) /\
  ((forall p v, ~ has_here w a p v) -> lookup (r_local (global s)) a = None).

Lemma add_local : forall g q a, NoDup (own q) -> lookup (r_local (add_router g (router_of q))) a =
  if in_dec string_dec a (own q) then Some (Some (loc q)) else lookup (r_local g) a.
Proof.
  intros g q a N. cbn [r_local add_router]. unfold lookup. rewrite update_get by now apply local_keys.
  rewrite local_get. destruct (in_dec string_dec a (own q)); reflexivity.
Qed.
Lemma remove_local : forall g q a, lookup (r_local (remove_router g (router_of q))) a =
  if in_dec string_dec a (own q) then None else lookup (r_local g) a.
Proof.
  intros g q a. cbn [r_local remove_router]. unfold lookup. rewrite pop_all_get, local_get.
  destruct (in_dec string_dec a (own q)); reflexivity.
Qed.
Lemma add_mapping : forall g q a, NoDup (map fst (tab q)) -> lookup (r_mapping (add_router g (router_of q))) a =
  match gget String.eqb (tab q) a with Some v => Some v | None => lookup (r_mapping g) a end.
Proof. intros g q a N. cbn [r_mapping add_router]. unfold lookup. now rewrite update_get. Qed.
Lemma remove_mapping : forall g q a, lookup (r_mapping (remove_router g (router_of q))) a =
  match gget String.eqb (tab q) a with Some v => None | None => lookup (r_mapping g) a end.
Proof. intros g q a. cbn [r_mapping remove_router]. unfold lookup. now rewrite pop_all_get. Qed.

Lemma here_uses : forall w a p v, w p = Some v -> ph v <> Closed -> In a (here v) -> uses w p a.
Proof. intros w a p v E P I. exists v. auto. Qed.

(** Both tables, at one address. *)
Record routes (s : state) (w : world) (a : addr) : Prop := {
  ro_here : forall p v, w p = Some v -> ph v = Running -> In a (here v) -> lookup (r_local (global s)) a = Some (Some (inproc v));
  ro_nowhere : (forall p v, w p = Some v -> ph v = Running -> ~ In a (here v)) -> lookup (r_local (global s)) a = None;
  ro_told : forall p v i, w p = Some v -> ph v = Running -> told v a = Some i -> lookup (r_mapping (global s)) a = Some i }.

(** An operation that does not touch [a] in the router, nor who has it. *)
Lemma routes_same : forall s w a s' w', routes s w a ->
  lookup (r_local (global s')) a = lookup (r_local (global s)) a ->
  lookup (r_mapping (global s')) a = lookup (r_mapping (global s)) a ->
  (forall p v', w' p = Some v' -> ph v' = Running -> exists v, w p = Some v /\ ph v = Running /\ here v' = here v /\ inproc v' = inproc v /\ told v' a = told v a) ->
  (forall p v, w p = Some v -> ph v = Running -> In a (here v) -> exists v', w' p = Some v' /\ ph v' = Running /\ here v' = here v) ->
  routes s' w' a.
Proof.
  intros s w a s' w' [A B C] E1 E2 F G. constructor.
  - intros p v' W P I. destruct (F p v' W P) as (v & X1 & X2 & X3 & X4 & _). rewrite E1, X4. eapply A; eauto. congruence.
  - intros N. rewrite E1. apply B. intros p v W P I. destruct (G p v W P I) as (v' & X1 & X2 & X3).
    apply (N p v' X1 X2). now rewrite X3.
  - intros p v' i W P T. destruct (F p v' W P) as (v & X1 & X2 & _ & _ & X5). rewrite E2. eapply C; eauto. congruence.
Qed.

Lemma routes_run : forall os a, orderly os -> exclusive os a -> routes (run os) (after os) a.
Proof.
  induction os as [|o os IH] using rev_ind; intros a O X.
  { constructor; [discriminate|reflexivity|discriminate]. }
  destruct (orderly_snoc _ _ O) as [O1 P].
  assert (RL := rel_run _ O1). assert (XN := exclusive_now _ _ X). assert (XO := exclusive_now _ _ (exclusive_snoc _ _ _ X)).
  specialize (IH a O1 (exclusive_snoc _ _ _ X)). rewrite run_snoc, after_snoc in *.
  set (s := run os) in *. set (w := after os) in *. clearbody s w.
  destruct o as [p q|p b i|p b|p|p t|p]; cbn [apply happens proper] in *.
  - (* start *)
    destruct P as (Pn & P1 & P2 & P3). destruct IH as [A B C]. constructor; cbn [global].
    + intros r v W Pr I. rewrite add_local by auto. destruct (Nat.eq_dec r p) as [->|Ne].
      * rewrite upd_eq in W. injection W as <-. cbn [here inproc] in *. destruct (in_dec string_dec a (own q)); [reflexivity|contradiction].
      * rewrite upd_ne in W by auto. destruct (in_dec string_dec a (own q)) as [J|J]; [|eapply A; eauto].
        exfalso. apply Ne. apply XN.
        -- exists v. rewrite upd_ne by auto. repeat split; auto. congruence.
        -- eexists. rewrite upd_eq. repeat split; [discriminate|]. left. exact J.
    + intros N. rewrite add_local by auto. destruct (in_dec string_dec a (own q)) as [J|J].
      * elim (N p _ (upd_eq _ _ _) eq_refl). exact J.
      * apply B. intros r v W Pr. apply (N r v); [|exact Pr]. rewrite upd_ne; [exact W|congruence].
    + intros r v i W Pr T. rewrite add_mapping by auto. destruct (Nat.eq_dec r p) as [->|Ne].
      * rewrite upd_eq in W. injection W as <-. cbn [told] in T. rewrite of_table_get in T. now rewrite T.
      * rewrite upd_ne in W by auto. destruct (gget String.eqb (tab q) a) eqn:J; [|eapply C; eauto].
        exfalso. apply Ne. apply XN.
        -- exists v. rewrite upd_ne by auto. repeat split; auto; [congruence|]. right; right. congruence.
        -- eexists. rewrite upd_eq. repeat split; [discriminate|]. right; left. cbn [known]. rewrite of_table_get. congruence.
  - (* learn *)
    destruct P as (v & Ev & Pv). pose proof (RL p) as Y. rewrite Ev in *. destruct Y as (q & Eq & Sm). rewrite Eq.
    eapply routes_same; [exact IH|reflexivity|reflexivity| |].
    + intros r v' W Pr. destruct (Nat.eq_dec r p) as [->|Ne].
      * rewrite upd_eq in W. injection W as <-. exists v. auto.
      * rewrite upd_ne in W by auto. exists v'. auto.
    + intros r v' W Pr I. destruct (Nat.eq_dec r p) as [->|Ne].
      * rewrite upd_eq. eexists. split; [reflexivity|]. cbn. split; congruence.
      * rewrite upd_ne by auto. eauto.
  - (* forget *)
    destruct P as (v & Ev & Pv). pose proof (RL p) as Y. rewrite Ev in *. destruct Y as (q & Eq & Sm). rewrite Eq.
    eapply routes_same; [exact IH|reflexivity|reflexivity| |].
    + intros r v' W Pr. destruct (Nat.eq_dec r p) as [->|Ne].
      * rewrite upd_eq in W. injection W as <-. exists v. auto.
      * rewrite upd_ne in W by auto. exists v'. auto.
    + intros r v' W Pr I. destruct (Nat.eq_dec r p) as [->|Ne].
      * rewrite upd_eq. eexists. split; [reflexivity|]. cbn. split; congruence.
      * rewrite upd_ne by auto. eauto.
  - (* sync *)
    destruct P as (v & Ev & Pv). pose proof (RL p) as Y. rewrite Ev in *. destruct Y as (q & Eq & [S1 S2 S3 S4 S5]). rewrite Eq.
    destruct IH as [A B C]. constructor; cbn [global].
    + intros r v' W Pr I. rewrite add_local, remove_local by auto. rewrite S1, S2. destruct (Nat.eq_dec r p) as [->|Ne].
      * rewrite upd_eq in W. injection W as <-. cbn [here inproc] in *. destruct (in_dec string_dec a (here v)); [reflexivity|contradiction].
      * rewrite upd_ne in W by auto. destruct (in_dec string_dec a (here v)) as [J|J]; [|eapply A; eauto].
        exfalso. apply Ne. apply XO; eapply here_uses; eauto; congruence.
    + intros N. rewrite add_local, remove_local by auto. rewrite S1. destruct (in_dec string_dec a (here v)) as [J|J].
      * elim (N p _ (upd_eq _ _ _)); [exact Pv|exact J].
      * apply B. intros r v' W Pr I. destruct (Nat.eq_dec r p) as [->|Ne]; [rewrite Ev in W; injection W as <-; contradiction|].
        apply (N r v'); [now rewrite upd_ne|exact Pr|exact I].
    + intros r v' i W Pr T. rewrite add_mapping, remove_mapping by auto. rewrite S3. destruct (Nat.eq_dec r p) as [->|Ne].
      * rewrite upd_eq in W. injection W as <-. cbn [told] in T. now rewrite T.
      * rewrite upd_ne in W by auto. destruct (known v a) eqn:J; [|eapply C; eauto].
        exfalso. apply Ne. apply XO; [exists v'|exists v]; repeat split; auto; try congruence.
        -- right; right. congruence.
        -- right; left. congruence.
  - (* receive *)
    destruct P as ((v & Ev & Pv) & N0). pose proof (RL p) as Y. rewrite Ev in *. destruct Y as (q & Eq & [S1 S2 S3 S4 S5]). rewrite Eq.
    destruct IH as [A B C]. constructor; cbn [global].
    + intros r v' W Pr I. rewrite add_local, remove_local by auto. cbn [own loc set_tab]. rewrite S1, S2. destruct (Nat.eq_dec r p) as [->|Ne].
      * rewrite upd_eq in W. injection W as <-. cbn [here inproc] in *. destruct (in_dec string_dec a (here v)); [reflexivity|contradiction].
      * rewrite upd_ne in W by auto. destruct (in_dec string_dec a (here v)) as [J|J]; [|eapply A; eauto].
        exfalso. apply Ne. apply XO; eapply here_uses; eauto; congruence.
    + intros N. rewrite add_local, remove_local by auto. cbn [own set_tab]. rewrite S1. destruct (in_dec string_dec a (here v)) as [J|J].
      * elim (N p _ (upd_eq _ _ _)); [exact Pv|exact J].
      * apply B. intros r v' W Pr I. destruct (Nat.eq_dec r p) as [->|Ne]; [rewrite Ev in W; injection W as <-; contradiction|].
        apply (N r v'); [now rewrite upd_ne|exact Pr|exact I].
    + intros r v' i W Pr T. rewrite add_mapping, remove_mapping by auto. cbn [tab set_tab]. rewrite S3. destruct (Nat.eq_dec r p) as [->|Ne].
      * rewrite upd_eq in W. injection W as <-. cbn [told] in T. rewrite of_table_get in T. now rewrite T.
      * rewrite upd_ne in W by auto. destruct (gget String.eqb t a) eqn:Jt.
        -- exfalso. apply Ne. apply XN.
           ++ exists v'. rewrite upd_ne by auto. repeat split; auto; [congruence|]. right; right. congruence.
           ++ eexists. rewrite upd_eq. split; [reflexivity|]. cbn [ph known]. split; [congruence|]. right; left. rewrite of_table_get. congruence.
        -- destruct (known v a) eqn:J; [|eapply C; eauto].
           exfalso. apply Ne. apply XO; [exists v'|exists v]; repeat split; auto; try congruence.
           ++ right; right. congruence.
           ++ right; left. congruence.
  - (* stop *)
    destruct P as (v & Ev & Pv). pose proof (RL p) as Y. rewrite Ev in *. destruct Y as (q & Eq & [S1 S2 S3 S4 S5]). rewrite Eq.
    destruct IH as [A B C]. constructor; cbn [global].
    + intros r v' W Pr I. rewrite remove_local. rewrite S1. destruct (Nat.eq_dec r p) as [->|Ne].
      * rewrite upd_eq in W. injection W as <-. cbn [ph] in Pr. destruct (ph v); discriminate.
      * rewrite upd_ne in W by auto. destruct (in_dec string_dec a (here v)) as [J|J]; [|eapply A; eauto].
        exfalso. apply Ne. apply XO; eapply here_uses; eauto; congruence.
    + intros N. rewrite remove_local. rewrite S1. destruct (in_dec string_dec a (here v)) as [J|J]; [reflexivity|].
      apply B. intros r v' W Pr I. destruct (Nat.eq_dec r p) as [->|Ne]; [rewrite Ev in W; injection W as <-; contradiction|].
      apply (N r v'); [now rewrite upd_ne|exact Pr|exact I].
    + intros r v' i W Pr T. rewrite remove_mapping. rewrite S3. destruct (Nat.eq_dec r p) as [->|Ne].
      * rewrite upd_eq in W. injection W as <-. cbn [ph] in Pr. destruct (ph v); discriminate.
      * rewrite upd_ne in W by auto. destruct (known v a) eqn:J; [|eapply C; eauto].
        exfalso. apply Ne. apply XO; [exists v'|exists v]; repeat split; auto; try congruence.
        -- right; right. congruence.
        -- right; left. congruence.
Qed.

(** *** Nothing stale, if the address is never forgotten *)
Lemma stale_run : forall os a, orderly os -> (forall p, ~ In (Forget p a) os) ->
  (forall p v, after os p = Some v -> told v a <> None -> known v a <> None) /\
  ((forall p v, after os p = Some v -> ph v = Running -> told v a = None) -> lookup (r_mapping (global (run os))) a = None).
Proof.
  induction os as [|o os IH] using rev_ind; intros a O F.
  { split; [discriminate|reflexivity]. }
  destruct (orderly_snoc _ _ O) as [O1 P]. assert (RL := rel_run _ O1).
  destruct (IH a O1) as [A B]; [intros p X; apply (F p), in_or_app; auto|]. rewrite run_snoc, after_snoc in *.
  assert (Fo : forall p, o <> Forget p a) by (intros p ->; apply (F p), in_or_app; right; now left).
  set (s := run os) in *. set (w := after os) in *. clearbody s w. clear F IH.
  destruct o as [p q|p b i|p b|p|p t|p]; cbn [apply happens proper] in *.
  - destruct P as (Pn & P1 & P2 & P3). split.
    + intros r v W T. destruct (Nat.eq_dec r p) as [->|Ne]; [|rewrite upd_ne in W by auto; eauto].
      rewrite upd_eq in W. injection W as <-. exact T.
    + intros N. cbn [global]. rewrite add_mapping by auto.
      assert (Z := N p _ (upd_eq _ _ _) eq_refl). cbn [told] in Z. rewrite of_table_get in Z. rewrite Z.
      apply B. intros r v W Pr. apply (N r v); [|exact Pr]. rewrite upd_ne; [exact W|congruence].
  - destruct P as (v & Ev & Pv). pose proof (RL p) as Y. rewrite Ev in *. destruct Y as (q & Eq & Sm). rewrite Eq. split.
    + intros r v' W T. destruct (Nat.eq_dec r p) as [->|Ne]; [|rewrite upd_ne in W by auto; eauto].
      rewrite upd_eq in W. injection W as <-. cbn [told known] in *. destruct (String.eqb a b); [discriminate|eauto].
    + intros N. cbn [global]. apply B. intros r v' W Pr. destruct (Nat.eq_dec r p) as [->|Ne].
      * rewrite Ev in W. injection W as <-. exact (N p _ (upd_eq _ _ _) Pv).
      * apply (N r v'); [now rewrite upd_ne|exact Pr].
  - destruct P as (v & Ev & Pv). pose proof (RL p) as Y. rewrite Ev in *. destruct Y as (q & Eq & Sm). rewrite Eq. split.
    + intros r v' W T. destruct (Nat.eq_dec r p) as [->|Ne]; [|rewrite upd_ne in W by auto; eauto].
      rewrite upd_eq in W. injection W as <-. cbn [told known] in *.
      destruct (String.eqb_spec a b) as [->|_]; [elim (Fo p); reflexivity|eauto].
    + intros N. cbn [global]. apply B. intros r v' W Pr. destruct (Nat.eq_dec r p) as [->|Ne].
      * rewrite Ev in W. injection W as <-. exact (N p _ (upd_eq _ _ _) Pv).
      * apply (N r v'); [now rewrite upd_ne|exact Pr].
  - destruct P as (v & Ev & Pv). pose proof (RL p) as Y. rewrite Ev in *. destruct Y as (q & Eq & [S1 S2 S3 S4 S5]). rewrite Eq. split.
    + intros r v' W T. destruct (Nat.eq_dec r p) as [->|Ne]; [|rewrite upd_ne in W by auto; eauto].
      rewrite upd_eq in W. injection W as <-. exact T.
    + intros N. cbn [global]. rewrite add_mapping, remove_mapping by auto. rewrite S3.
      assert (Z := N p _ (upd_eq _ _ _) Pv). cbn [told] in Z. rewrite Z.
      apply B. intros r v' W Pr. destruct (Nat.eq_dec r p) as [->|Ne].
      * rewrite Ev in W. injection W as <-. destruct (told v a) eqn:E; [|reflexivity]. elim (A p v Ev); congruence.
      * apply (N r v'); [now rewrite upd_ne|exact Pr].
  - destruct P as ((v & Ev & Pv) & N0). pose proof (RL p) as Y. rewrite Ev in *. destruct Y as (q & Eq & [S1 S2 S3 S4 S5]). rewrite Eq. split.
    + intros r v' W T. destruct (Nat.eq_dec r p) as [->|Ne]; [|rewrite upd_ne in W by auto; eauto].
      rewrite upd_eq in W. injection W as <-. exact T.
    + intros N. cbn [global]. rewrite add_mapping, remove_mapping by auto. cbn [tab set_tab]. rewrite S3.
      assert (Z := N p _ (upd_eq _ _ _) Pv). cbn [told] in Z. rewrite of_table_get in Z. rewrite Z.
      destruct (known v a) eqn:K; [reflexivity|].
      apply B. intros r v' W Pr. destruct (Nat.eq_dec r p) as [->|Ne].
      * rewrite Ev in W. injection W as <-. destruct (told v a) eqn:E; [|reflexivity]. elim (A p v Ev); congruence.
      * apply (N r v'); [now rewrite upd_ne|exact Pr].
  - destruct P as (v & Ev & Pv). pose proof (RL p) as Y. rewrite Ev in *. destruct Y as (q & Eq & [S1 S2 S3 S4 S5]). rewrite Eq. split.
    + intros r v' W T. destruct (Nat.eq_dec r p) as [->|Ne]; [|rewrite upd_ne in W by auto; eauto].
      rewrite upd_eq in W. injection W as <-. cbn [told known] in *. eauto.
    + intros N. cbn [global]. rewrite remove_mapping. rewrite S3. destruct (known v a) eqn:K; [reflexivity|].
      apply B. intros r v' W Pr. destruct (Nat.eq_dec r p) as [->|Ne].
      * rewrite Ev in W. injection W as <-. destruct (told v a) eqn:E; [|reflexivity]. elim (A p v Ev); congruence.
      * apply (N r v'); [now rewrite upd_ne|exact Pr].
Qed.

(** *** Addresses nobody ever mentioned *)
Definition mentions (o : op) (a : addr) : Prop :=
  match o with
  | Start _ q => In a (own q) \/ In a (map fst (tab q))
  | Learn _ b _ => b = a
  | Receive _ t => In a (map fst t)
  | _ => False
  end.

Lemma not_key : forall (t : list (addr * option addr)) a, ~ In a (map fst t) -> gget String.eqb t a = None.
Proof. intros t a N. apply (gget_None _ String.eqb_spec). exact N. Qed.

Lemma never_run : forall os a, (forall o, In o os -> ~ mentions o a) ->
  lookup (r_local (global (run os))) a = None /\ lookup (r_mapping (global (run os))) a = None /\
  forall p q, get (run os) p = Some q -> ~ In a (own q) /\ gget String.eqb (tab q) a = None.
Proof.
  induction os as [|o os IH] using rev_ind; intros a F.
  { repeat split; discriminate. }
  destruct (IH a) as (A & B & C); [intros x X; apply F, in_or_app; auto|].
  assert (Fo : ~ mentions o a) by (apply F, in_or_app; right; now left). rewrite run_snoc. clear F IH.
  set (s := run os) in *. clearbody s.
  assert (AddN : forall g q, ~ In a (own q) -> gget String.eqb (tab q) a = None ->
    lookup (r_local g) a = None -> lookup (r_mapping g) a = None ->
    lookup (r_local (add_router g (router_of q))) a = None /\ lookup (r_mapping (add_router g (router_of q))) a = None).
  { assert (U : forall V (e d : list (addr * V)), gget String.eqb e a = None -> gget String.eqb d a = None -> gget String.eqb (update d e) a = None).
    { intros V e. unfold update. induction e as [|[k x] e IHe]; intros d E D; [exact D|]. cbn [fold_left fst snd gget] in *.
      destruct (String.eqb k a) eqn:Ek; [discriminate|]. apply IHe; [exact E|]. now rewrite (gget_gset _ String.eqb_spec), Ek. }
    intros g q I T L M. split; cbn [r_local r_mapping add_router]; apply U; auto.
    rewrite local_get. destruct (in_dec string_dec a (own q)); [contradiction|reflexivity]. }
  assert (RemN : forall g q, lookup (r_local g) a = None -> lookup (r_mapping g) a = None ->
    lookup (r_local (remove_router g (router_of q))) a = None /\ lookup (r_mapping (remove_router g (router_of q))) a = None).
  { intros g q L M. rewrite remove_local, remove_mapping, L, M. split; [destruct (in_dec string_dec a (own q))|destruct (gget String.eqb (tab q) a)]; reflexivity. }
  assert (Pt : forall g p q, ~ In a (own q) /\ gget String.eqb (tab q) a = None -> forall r x, get {| global := g; pools := put s p q |} r = Some x ->
    ~ In a (own x) /\ gget String.eqb (tab x) a = None).
  { intros g p q H r x G. rewrite get_put in G. destruct (Nat.eqb p r); [injection G as <-; exact H|eauto]. }
  destruct o as [p q|p b i|p b|p|p t|p]; cbn [apply mentions] in *.
  - assert (G : ~ In a (own q) /\ gget String.eqb (tab q) a = None) by (split; [tauto|apply not_key; tauto]).
    destruct G as [G1 G2]. destruct (AddN (global s) q G1 G2 A B) as [X Y]. cbn [global]. repeat split; auto; eapply Pt; eauto.
  - destruct (get s p) as [q|] eqn:E; [|repeat split; auto; eapply C; eauto]. destruct (C p q E) as [G1 G2]. cbn [global].
    split; [exact A|]. split; [exact B|]. apply Pt. cbn [own tab set_tab]. split; [exact G1|].
    rewrite (gget_gset _ String.eqb_spec). destruct (String.eqb_spec b a); [congruence|exact G2].
  - destruct (get s p) as [q|] eqn:E; [|repeat split; auto; eapply C; eauto]. destruct (C p q E) as [G1 G2]. cbn [global].
    split; [exact A|]. split; [exact B|]. apply Pt. cbn [own tab set_tab]. split; [exact G1|].
    rewrite (gget_gdel _ String.eqb_spec). destruct (String.eqb b a); [reflexivity|exact G2].
  - destruct (get s p) as [q|] eqn:E; [|repeat split; auto; eapply C; eauto]. destruct (C p q E) as [G1 G2]. cbn [global].
    destruct (RemN (global s) q A B) as [X Y]. destruct (AddN _ q G1 G2 X Y) as [X' Y']. split; [exact X'|]. split; [exact Y'|]. exact C.
  - destruct (get s p) as [q|] eqn:E; [|repeat split; auto; eapply C; eauto]. destruct (C p q E) as [G1 G2]. cbn [global].
    destruct (RemN (global s) q A B) as [X Y].
    destruct (AddN (remove_router (global s) (router_of q)) (set_tab q t) G1 (not_key _ _ Fo) X Y) as [X' Y']. split; [exact X'|]. split; [exact Y'|].
    apply Pt. split; [exact G1|exact (not_key _ _ Fo)].
  - destruct (get s p) as [q|] eqn:E; [|repeat split; auto; eapply C; eauto]. cbn [global].
    destruct (RemN (global s) q A B) as [X Y]. split; [exact X|]. split; [exact Y|]. exact C.
Qed.

(** *** The order of addresses *)
Definition heres (w : world) (l : list nat) : list addr :=
  flat_map (fun p => match w p with Some v => here v | None => [] end) l.

Lemma remove_first_absent : forall a l, ~ In a l -> remove_first a l = l.
Proof.
  induction l as [|b l IH]; intros N; [reflexivity|]. cbn [remove_first]. destruct (String.eqb_spec b a) as [->|_].
  - elim N. now left.
  - f_equal. apply IH. intros X. apply N. now right.
Qed.
Lemma remove_first_front : forall a l1 l2, ~ In a l1 -> remove_first a (l1 ++ a :: l2) = l1 ++ l2.
Proof.
  induction l1 as [|b l1 IH]; intros l2 N; cbn [app remove_first].
  - now rewrite String.eqb_refl.
  - destruct (String.eqb_spec b a) as [->|_]; [elim N; now left|]. f_equal. apply IH. intros X. apply N. now right.
Qed.
Lemma remove_block : forall m l1 l2, (forall a, In a m -> ~ In a l1) ->
  fold_left (fun l a => remove_first a l) m (l1 ++ m ++ l2) = l1 ++ l2.
Proof.
  induction m as [|a m IH]; intros l1 l2 D; [reflexivity|]. cbn [fold_left app].
  rewrite remove_first_front by (apply D; now left). apply IH. intros b X. apply D. now right.
Qed.
Lemma remove_absent : forall m l, (forall a, In a m -> ~ In a l) -> fold_left (fun l a => remove_first a l) m l = l.
Proof.
  induction m as [|a m IH]; intros l D; [reflexivity|]. cbn [fold_left]. rewrite remove_first_absent by (apply D; now left).
  apply IH. intros b X. apply D. now right.
Qed.

Lemma without_absent : forall p l, ~ In p l -> without p l = l.
Proof.
  induction l as [|q l IH]; intros N; [reflexivity|]. unfold without in *. cbn [filter].
  destruct (Nat.eqb_spec q p) as [->|_]; [elim N; now left|]. cbn [negb]. f_equal. apply IH. intros X. apply N. now right.
Qed.
Lemma without_In : forall p l q, In q (without p l) <-> In q l /\ q <> p.
Proof.
  intros. unfold without. rewrite filter_In. destruct (Nat.eqb_spec q p); cbn [negb]; intuition congruence.
Qed.
Lemma NoDup_without : forall p l, NoDup l -> NoDup (without p l).
Proof. intros. now apply NoDup_filter. Qed.

Lemma heres_ext : forall w w' l, (forall p, In p l -> match w p with Some v => here v | None => [] end = match w' p with Some v => here v | None => [] end) ->
  heres w l = heres w' l.
Proof. intros w w' l H. unfold heres. induction l as [|p l IH]; [reflexivity|]. cbn [flat_map]. rewrite (H p) by now left. f_equal. apply IH. intros q X. apply H. now right. Qed.
Lemma heres_app : forall w l l', heres w (l ++ l') = heres w l ++ heres w l'.
Proof. intros. apply flat_map_app. Qed.

(** [happens] keeps the addresses of pools that are there. *)
Lemma happens_here : forall w o p v, proper w o -> w p = Some v -> exists v', happens w o p = Some v' /\ here v' = here v.
Proof.
  intros w o p v P E. destruct o as [r q|r b i|r b|r|r t|r]; cbn [happens proper] in *;
    try (match goal with |- context [w ?r] => destruct (w r) eqn:Er end; [|eauto]; destruct (Nat.eq_dec p r) as [->|Ne];
         [rewrite upd_eq; eexists; split; [reflexivity|]; cbn [here]; congruence|rewrite upd_ne by auto; eauto]).
  destruct P as [P _]. rewrite upd_ne by congruence. eauto.
Qed.

Lemma order_run : forall os, orderly os -> (forall a, exclusive os a) ->
  r_cur (global (run os)) = heres (after os) (by_announcement os) /\
  NoDup (by_announcement os) /\ (forall p, In p (by_announcement os) <-> runs (after os) p).
Proof.
  induction os as [|o os IH] using rev_ind; intros O X.
  { repeat split; [constructor|contradiction|]. intros (v & E & _). discriminate. }
  destruct (orderly_snoc _ _ O) as [O1 P]. assert (RL := rel_run _ O1).
  assert (XO : forall a, exclusive os a) by (intros a; eapply exclusive_snoc; eauto).
  destruct (IH O1 XO) as (A & N & M). rewrite run_snoc, after_snoc.
  unfold by_announcement in *. rewrite fold_left_app. cbn [fold_left]. set (l := fold_left next_order os []) in *. clearbody l.
  assert (XN : forall a p q, uses (after os) p a -> uses (after os) q a -> p = q) by (intros a; apply exclusive_now, XO).
  set (s := run os) in *. set (w := after os) in *. clearbody s w. clear IH XO X O O1.
  (* what the addresses of the others are after the step *)
  assert (Oth : forall p, In p l -> exists v, w p = Some v /\ ph v = Running) by (intros p I; apply M in I; exact I).
  assert (Ext : forall r, (forall q, In q r -> In q l) -> heres (happens w o) r = heres w r).
  { intros r I. apply heres_ext. intros q J. destruct (Oth q (I q J)) as (v & Ev & _).
    destruct (happens_here w o q v P Ev) as (v' & E1 & E2). now rewrite E1, Ev, E2. }
  (* removing a running pool *)
  assert (Rem : forall p v q, w p = Some v -> ph v = Running -> own q = here v ->
    fold_left (fun l a => remove_first a l) (own q) (r_cur (global s)) = heres w (without p l)).
  { intros p v q Ev Pv Eo. rewrite A.
    assert (I : In p l) by (apply M; exists v; auto). apply in_split in I. destruct I as (l1 & l2 & ->).
    assert (N1 := NoDup_remove_2 _ _ _ N). rewrite in_app_iff in N1.
    rewrite heres_app. replace (heres w (p :: l2)) with (own q ++ heres w l2) by (cbn [heres flat_map]; rewrite Ev, Eo; reflexivity).
    rewrite remove_block.
    - rewrite <- heres_app. f_equal. unfold without. rewrite filter_app. cbn [filter]. rewrite Nat.eqb_refl. cbn [negb].
      fold (without p l1). fold (without p l2). rewrite !without_absent by tauto. reflexivity.
    - intros a Ia J. unfold heres in J. apply in_flat_map in J. destruct J as (r & Jr & J).
      destruct (Oth r) as (vr & Er & Pr); [apply in_or_app; auto|]. rewrite Er in J.
      assert (p = r); [|subst; tauto]. apply (XN a); [exists v|exists vr]; repeat split; auto; try congruence. left. congruence. }
  (* membership for running pools *)
  assert (Mem : forall p v v', w p = Some v -> ph v = Running -> ph v' = Running ->
    forall r, In r (without p l ++ [p]) <-> runs (upd w p v') r).
  { intros p v v' Ev Pv Pv' r. rewrite in_app_iff, without_In, M. split.
    - intros [[(x & Ex & Px) Ne]|[->|[]]].
      + exists x. now rewrite upd_ne.
      + exists v'. now rewrite upd_eq.
    - intros (x & Ex & Px). destruct (Nat.eq_dec r p) as [->|Ne]; [right; now left|].
      rewrite upd_ne in Ex by auto. left. split; [now exists x|exact Ne]. }
  assert (ND : forall p, NoDup (without p l ++ [p])).
  { intros p. apply NoDup_rev in N. rewrite <- (rev_involutive (without p l ++ [p])). apply NoDup_rev. rewrite rev_app_distr. cbn [rev app].
    constructor; [rewrite <- in_rev, without_In; tauto|]. apply NoDup_rev. apply NoDup_without. rewrite <- (rev_involutive l). now apply NoDup_rev. }
  destruct o as [p q|p b i|p b|p|p t|p]; cbn [next_order] in *.
  - cbn [apply global]. cbn [r_cur add_router router_of]. cbn [proper] in P. destruct P as (Pn & P1 & P2 & P3).
    assert (Np : ~ In p l) by (intros I; destruct (Oth p I) as (v & E & _); congruence). rewrite (without_absent p l Np).
    split; [|split].
    + rewrite heres_app, A, Ext by auto. f_equal. cbn [heres flat_map happens]. rewrite upd_eq, app_nil_r. reflexivity.
    + specialize (ND p). now rewrite (without_absent p l Np) in ND.
    + intros r. cbn [happens]. rewrite in_app_iff, M. split.
      * intros [(v & E & Pv)|[->|[]]].
        -- exists v. rewrite upd_ne; [auto|congruence].
        -- eexists. rewrite upd_eq. split; reflexivity.
      * intros (v & E & Pv). destruct (Nat.eq_dec r p) as [->|Ne]; [right; now left|]. rewrite upd_ne in E by auto. left. now exists v.
  - cbn [proper] in P. assert (P0 := P). destruct P as (v & Ev & Pv). pose proof (RL p) as Y. rewrite Ev in Y. destruct Y as (q & Eq & Sm).
    cbn [apply]. rewrite Eq. cbn [global]. split; [rewrite Ext by auto; exact A|]. split; [exact N|].
    intros r. rewrite M. cbn [happens]. rewrite Ev. split; intros (x & Ex & Px).
    + destruct (Nat.eq_dec r p) as [->|Ne]; [eexists; rewrite upd_eq; split; [reflexivity|exact Pv]|exists x; now rewrite upd_ne].
    + destruct (Nat.eq_dec r p) as [->|Ne]; [now exists v|rewrite upd_ne in Ex by auto; now exists x].
  - cbn [proper] in P. assert (P0 := P). destruct P as (v & Ev & Pv). pose proof (RL p) as Y. rewrite Ev in Y. destruct Y as (q & Eq & Sm).
    cbn [apply]. rewrite Eq. cbn [global]. split; [rewrite Ext by auto; exact A|]. split; [exact N|].
    intros r. rewrite M. cbn [happens]. rewrite Ev. split; intros (x & Ex & Px).
    + destruct (Nat.eq_dec r p) as [->|Ne]; [eexists; rewrite upd_eq; split; [reflexivity|exact Pv]|exists x; now rewrite upd_ne].
    + destruct (Nat.eq_dec r p) as [->|Ne]; [now exists v|rewrite upd_ne in Ex by auto; now exists x].
  - cbn [proper] in P. assert (P0 := P). destruct P as (v & Ev & Pv). pose proof (RL p) as Y. rewrite Ev in Y. destruct Y as (q & Eq & Sm).
    cbn [apply]. rewrite Eq. cbn [global r_cur add_router remove_router]. cbn [router_of r_cur].
    split; [|split; [apply ND|]].
    + rewrite (Rem p v q Ev Pv (s_own _ _ Sm)), heres_app, Ext by (intros r J; apply without_In in J; tauto).
      f_equal. cbn [heres flat_map happens]. rewrite Ev, upd_eq, app_nil_r. cbn [here]. exact (s_own _ _ Sm).
    + cbn [happens]. rewrite Ev. eapply Mem; eauto.
  - cbn [proper] in P. assert (P0 := P). destruct P as ((v & Ev & Pv) & N0). pose proof (RL p) as Y. rewrite Ev in Y. destruct Y as (q & Eq & Sm).
    cbn [apply]. rewrite Eq. cbn [global r_cur add_router remove_router]. cbn [router_of r_cur set_tab own].
    split; [|split; [apply ND|]].
    + rewrite (Rem p v q Ev Pv (s_own _ _ Sm)), heres_app, Ext by (intros r J; apply without_In in J; tauto).
      f_equal. cbn [heres flat_map happens]. rewrite Ev, upd_eq, app_nil_r. cbn [here]. exact (s_own _ _ Sm).
    + cbn [happens]. rewrite Ev. eapply Mem; eauto.
  - cbn [proper] in P. assert (P0 := P). destruct P as (v & Ev & Pv). pose proof (RL p) as Y. rewrite Ev in Y. destruct Y as (q & Eq & Sm).
    cbn [apply]. rewrite Eq. cbn [global r_cur remove_router]. cbn [router_of r_cur].
    split; [|split; [now apply NoDup_without|]].
    + rewrite Ext by (intros r J; apply without_In in J; tauto). destruct (ph v) eqn:Ph; [apply (Rem p v q Ev Ph (s_own _ _ Sm))| |congruence].
      assert (Np : ~ In p l) by (intros I; destruct (Oth p I) as (v1 & E & E1); congruence).
      rewrite (without_absent p l Np), A. apply remove_absent. intros a Ia J. unfold heres in J. apply in_flat_map in J. destruct J as (r & Jr & J).
      destruct (Oth r Jr) as (vr & Er & Pr). rewrite Er in J.
      assert (p = r); [|subst; tauto]. apply (XN a); [exists v|exists vr]; repeat split; auto; try congruence. left. destruct Sm. congruence.
    + intros r. rewrite without_In, M. cbn [happens]. rewrite Ev. split.
      * intros ((x & Ex & Px) & Ne). exists x. now rewrite upd_ne.
      * intros (x & Ex & Px). destruct (Nat.eq_dec r p) as [->|Ne].
        -- rewrite upd_eq in Ex. injection Ex as <-. cbn [ph] in Px. destruct (ph v); discriminate.
        -- rewrite upd_ne in Ex by auto. split; [now exists x|exact Ne].
Qed.

(** *** Proxies *)
Lemma prx_kept : forall os p q, get (run os) p = Some q -> exists q0, In (Start p q0) os /\ prx q = prx q0.
Proof.
  induction os as [|o os IH] using rev_ind; intros p q G; [discriminate|]. rewrite run_snoc in G.
  assert (Old : forall r, get (run os) r = Some q -> r = p -> exists q0, In (Start p q0) (os ++ [o]) /\ prx q = prx q0).
  { intros r X ->. destruct (IH p q X) as (q0 & I & E). exists q0. split; [apply in_or_app; auto|exact E]. }
  assert (Put : forall g r x t, get (run os) r = Some x -> get {| global := g; pools := put (run os) r (set_tab x t) |} p = Some q ->
    exists q0, In (Start p q0) (os ++ [o]) /\ prx q = prx q0).
  { intros g r x t X Y. rewrite get_put in Y. destruct (Nat.eqb_spec r p) as [->|Ne]; [|eauto].
    injection Y as <-. destruct (IH p x X) as (q0 & I & E). exists q0. split; [apply in_or_app; auto|exact E]. }
  destruct o as [r x|r b i|r b|r|r t|r]; cbn [apply] in G.
  - rewrite get_put in G. destruct (Nat.eqb_spec r p) as [->|Ne]; [|eauto]. injection G as <-. exists x. split; [|reflexivity].
    apply in_or_app. right. now left.
  - destruct (get (run os) r) eqn:E; eauto.
  - destruct (get (run os) r) eqn:E; eauto.
  - destruct (get (run os) r) eqn:E; eauto.
  - destruct (get (run os) r) eqn:E; eauto.
  - destruct (get (run os) r) eqn:E; eauto.
Qed.

Lemma update_some : forall V (e d : list (addr * V)) k v, gget String.eqb (update d e) k = Some v ->
  In (k, v) e \/ gget String.eqb d k = Some v.
Proof.
  intros V e. unfold update. induction e as [|[a x] e IH]; intros d k v H; [auto|]. cbn [fold_left fst snd] in H.
  apply IH in H. destruct H as [H|H]; [left; now right|]. rewrite (gget_gset _ String.eqb_spec) in H.
  destruct (String.eqb_spec a k) as [->|]; [|auto]. injection H as ->. left. now left.
Qed.

Lemma proxies_run : forall os k v, orderly os -> lookup (r_proxy (global (run os))) k = Some v ->
  exists p q, In (Start p q) os /\ lookup (prx q) k = Some v.
Proof.
  induction os as [|o os IH] using rev_ind; intros k v O L; [discriminate|].
  destruct (orderly_snoc _ _ O) as [O1 P]. rewrite run_snoc in L.
  assert (Old : lookup (r_proxy (global (run os))) k = Some v -> exists p q, In (Start p q) (os ++ [o]) /\ lookup (prx q) k = Some v).
  { intros X. destruct (IH k v O1 X) as (p & q & I & E). exists p, q. split; [apply in_or_app; auto|exact E]. }
  assert (ND : forall p q, In (Start p q) os -> NoDup (map fst (prx q))).
  { intros p q I. apply in_split in I. destruct I as (o1 & o2 & E). apply (O1 o1 (Start p q) o2 E). }
  assert (Add : forall p q g, get (run os) p = Some q -> lookup (update g (prx q)) k = Some v -> (lookup g k = Some v -> lookup (r_proxy (global (run os))) k = Some v) ->
    exists p q, In (Start p q) (os ++ [o]) /\ lookup (prx q) k = Some v).
  { intros p q g G U Ol. destruct (prx_kept _ _ _ G) as (q0 & I & E). unfold lookup in U. rewrite update_get in U by (rewrite E; eauto).
    destruct (gget String.eqb (prx q) k) eqn:X; [|auto]. injection U as ->. exists p, q0. split; [apply in_or_app; auto|]. now rewrite <- E. }
  destruct o as [p q|p b i|p b|p|p t|p]; cbn [apply] in L.
  - cbn [global r_proxy add_router router_of] in L. destruct P as (_ & _ & _ & P). unfold lookup in L. rewrite update_get in L by exact P.
    destruct (gget String.eqb (prx q) k) eqn:X; [|auto]. injection L as ->. exists p, q. split; [apply in_or_app; right; now left|exact X].
  - destruct (get (run os) p) eqn:E; auto.
  - destruct (get (run os) p) eqn:E; auto.
  - destruct (get (run os) p) as [q|] eqn:E; auto. cbn [global r_proxy add_router remove_router router_of] in L. eapply Add; eauto.
  - destruct (get (run os) p) as [q|] eqn:E; auto. cbn [global r_proxy add_router remove_router router_of set_tab prx] in L. eapply (Add p q); eauto.
  - destruct (get (run os) p) as [q|] eqn:E; auto.
Qed.

Lemma proxies_stay : forall os k, orderly os -> forall p q v, In (Start p q) os -> lookup (prx q) k = Some v ->
  exists v', lookup (r_proxy (global (run os))) k = Some v'.
Proof.
  induction os as [|o os IH] using rev_ind; intros k O p q v I L; [contradiction|].
  destruct (orderly_snoc _ _ O) as [O1 P]. rewrite run_snoc.
  assert (U : forall (e d : list (addr * addr)) x, gget String.eqb d k = Some x -> exists y, gget String.eqb (update d e) k = Some y).
  { intros e. unfold update. induction e as [|[a y] e IHe]; intros d x H; [eauto|]. cbn [fold_left fst snd].
    destruct (String.eqb_spec a k) as [->|Ne].
    - apply (IHe _ y). rewrite (gget_gset _ String.eqb_spec). now rewrite String.eqb_refl.
    - apply (IHe _ x). rewrite (gget_gset _ String.eqb_spec). destruct (String.eqb_spec a k); [contradiction|exact H]. }
  apply in_app_iff in I. destruct I as [I|[->|[]]].
  - destruct (IH k O1 p q v I L) as [v' X]. destruct o as [r y|r b i|r b|r|r t|r]; cbn [apply].
    + cbn [global r_proxy add_router]. eapply U; eauto.
    + destruct (get (run os) r); eauto.
    + destruct (get (run os) r); eauto.
    + destruct (get (run os) r); [|eauto]. cbn [global r_proxy add_router remove_router]. eapply U; eauto.
    + destruct (get (run os) r); [|eauto]. cbn [global r_proxy add_router remove_router]. eapply U; eauto.
    + destruct (get (run os) r); eauto.
  - cbn [apply global r_proxy add_router router_of]. destruct P as (_ & _ & _ & P). exists v. unfold lookup in *.
    rewrite update_get by exact P. now rewrite L.
Qed.
