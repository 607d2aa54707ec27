(** * AFileProofs: invariant of the executor (for C74) *)
From Coq Require Import List Bool Arith Lia.
From Verif Require Import AFileModel AFileSpec.
Import ListNotations.

Section Proofs.
Context {F Op R : Type} (exec : F -> Op -> F * R).
Notation st := (@st F Op R).
Notation event := (@event Op).
Notation step := (@step F Op R exec).
Notation run := (@run F Op R exec).
Notation sync := (@sync F Op R exec).

(** ** The invariant *)
Definition qids (s : st) := map (fun j => j_id j) (queue s).
Definition rids (s : st) := map (fun t => j_id (t_job t)) (running s).
Definition oids (s : st) := map fst (outcomes s).
Definition agrees (calls : nat -> option (nat * Op)) (j : @job Op) : Prop :=
  calls (j_id j) = match j_what j with OnFile f o => Some (f, o) | WaitFor _ => None end.

Record Inv (h : nat -> option nat) (calls : nat -> option (nat * Op)) (s : st) : Prop := {
  i_handle : handle s = h;
  i_nodup : NoDup (qids s ++ rids s);
  i_q_new : forall i, In i (qids s) -> ~ In i (oids s);
  i_r_new : forall t, In t (running s) -> left t = false -> ~ In (j_id (t_job t)) (oids s);
  i_r_left : forall t, In t (running s) -> left t = true -> In (j_id (t_job t), CancelledError) (outcomes s);
  i_once : NoDup (oids s);
  i_qj : forall j, In j (queue s) -> agrees calls j;
  i_rj : forall t, In t (running s) -> agrees calls (t_job t);
  i_used : forall i, calls i <> None -> In i (qids s) \/ In i (rids s) \/ In i (oids s);
  i_ready : forall t, In t (running s) -> ready t = false -> exists e, j_what (t_job t) = WaitFor e;
  i_room : length (running s) <= threads s }.

Lemma unused_spec (s : st) i : unused s i = true <-> ~ In i (qids s) /\ ~ In i (rids s) /\ ~ In i (oids s).
Proof.
  unfold unused. rewrite negb_true_iff, !orb_false_iff.
  assert (Q : existsb (fun j => j_id j =? i) (queue s) = false <-> ~ In i (qids s)).
  { unfold qids. rewrite in_map_iff. split.
    - intros H (j & <- & I). enough (existsb (fun j0 => j_id j0 =? j_id j) (queue s) = true) by congruence.
      apply existsb_exists. exists j. split; auto. apply Nat.eqb_refl.
    - intros H. destruct (existsb _ _) eqn:E; auto. apply existsb_exists in E. destruct E as (j & I & E). apply Nat.eqb_eq in E. elim H. exists j. split; auto. }
  assert (T : existsb (with_id i) (running s) = false <-> ~ In i (rids s)).
  { unfold rids. rewrite in_map_iff. split.
    - intros H (j & <- & I). enough (existsb (with_id (j_id (t_job j))) (running s) = true) by congruence.
      apply existsb_exists. exists j. split; auto. apply Nat.eqb_refl.
    - intros H. destruct (existsb (with_id i) (running s)) eqn:E; auto. apply existsb_exists in E. destruct E as (j & I & E). apply Nat.eqb_eq in E. elim H. exists j. split; auto. }
  assert (O : existsb (fun p => fst p =? i) (outcomes s) = false <-> ~ In i (oids s)).
  { unfold oids. rewrite in_map_iff. split.
    - intros H (j & <- & I). enough (existsb (fun p : nat * @outcome R => fst p =? fst j) (outcomes s) = true) by congruence.
      apply existsb_exists. exists j. split; auto. apply Nat.eqb_refl.
    - intros H. destruct (existsb (fun p : nat * @outcome R => fst p =? i) (outcomes s)) eqn:E; auto. apply existsb_exists in E. destruct E as (j & I & E). apply Nat.eqb_eq in E. elim H. exists j. split; auto. }
  tauto.
Qed.

Lemma take_spec i (l : list (@thread Op)) t r : take i l = Some (t, r) ->
  j_id (t_job t) = i /\ exists a b, l = a ++ t :: b /\ r = a ++ b /\ forall x, In x a -> j_id (t_job x) <> i.
Proof.
  revert t r. induction l as [|x l IH]; intros t r; cbn [take]; [discriminate|]. unfold with_id. destruct (Nat.eqb_spec (j_id (t_job x)) i) as [E|N].
  - intros Q. inversion Q; subst. split; auto. exists [], r. repeat split; auto.
  - destruct (take i l) as [[y r']|]; [|discriminate]. intros Q. inversion Q; subst. destruct (IH t r' eq_refl) as (E & a & b & -> & -> & A).
    split; auto. exists (x :: a), b. repeat split; auto. intros z [<-|I]; auto.
Qed.
Lemma take_in i (l : list (@thread Op)) : In i (map (fun t => j_id (t_job t)) l) -> take i l <> None.
Proof.
  induction l as [|x l IH]; cbn [map take]; [intros []|]. unfold with_id. destruct (Nat.eqb_spec (j_id (t_job x)) i); [discriminate|].
  intros [H|H]; [congruence|]. specialize (IH H). destruct (take i l) as [[y r]|]; congruence.
Qed.

Lemma nodup_insert {A} (a b : list A) x : NoDup (a ++ b) -> ~ In x (a ++ b) -> NoDup (a ++ x :: b).
Proof.
  revert a b. induction a as [|y a IH]; cbn; intros b N I; [now constructor|]. inversion N; subst. constructor.
  - intros J. apply in_app_or in J. destruct J as [J|[J|J]]; [|subst; tauto|]; apply H1; apply in_or_app; auto.
  - apply IH; auto.
Qed.

(** One step: the invariant is kept, and this is what it does to the files and the outcomes. *)
Definition calls_after (h : nat -> option nat) (calls : nat -> option (nat * Op)) (x : event) : nat -> option (nat * Op) :=
  match x with Call i w o => match h w with Some f => upd calls i (Some (f, o)) | None => calls end | _ => calls end.
Definition handle_after (h : nat -> option nat) (x : event) : nat -> option nat :=
  match x with Detach w => upd h w None | _ => h end.
Definition entry (h : nat -> option nat) (calls : nat -> option (nat * Op)) (x : event) : list (nat * option nat * Op) :=
  match x with
  | Direct w o => match h w with Some f => [(f, None, o)] | None => [] end
  | Finish i => match calls i with Some (f, o) => [(f, Some i, o)] | None => [] end
  | _ => []
  end.
Lemma history_cons h calls x tr : history h calls (x :: tr) = entry h calls x ++ history (handle_after h x) (calls_after h calls x) tr.
Proof. destruct x; cbn; try reflexivity; destruct (h w) || destruct (calls i) as [[f o]|]; reflexivity. Qed.

Lemma upd_same {A} (m : nat -> A) k x : upd m k x k = x.
Proof. unfold upd. now rewrite Nat.eqb_refl. Qed.
Lemma upd_other {A} (m : nat -> A) k x j : j <> k -> upd m k x j = m j.
Proof. unfold upd. intros N. destruct (Nat.eqb_spec j k); congruence. Qed.

Lemma inv_step h calls s x s' : Inv h calls s -> step s x = Some s' -> Inv (handle_after h x) (calls_after h calls x) s'.
Proof.
  intros [H ND QN RN RL ON QJ RJ US RD RM] E. destruct x as [i w o|w o|i e|e|e| |i|i|w]; cbn [step] in E.
  - destruct (unused s i) eqn:U; [|discriminate]. apply unused_spec in U. destruct U as (U1 & U2 & U3). inversion E; subst s'; clear E.
    cbn [handle_after calls_after]. unfold call. rewrite H. destruct (h w) as [f|].
    + assert (OLD : forall j, agrees calls j -> j_id j <> i -> agrees (upd calls i (Some (f, o))) j).
      { intros j A N. unfold agrees in *. now rewrite upd_other. }
      constructor; unfold qids, rids, oids, set_queue in *; cbn [queue running outcomes handle threads] in *; auto.
      * rewrite map_app. cbn [map j_id]. rewrite <- app_assoc. apply nodup_insert; auto. intros I. apply in_app_or in I. tauto.
      * intros k I. rewrite map_app in I. apply in_app_or in I. destruct I as [I|[<-|[]]]; auto.
      * intros j I. apply in_app_or in I. destruct I as [I|[<-|[]]].
        -- apply OLD; auto. intros J. apply U1. rewrite <- J. now apply in_map with (f := fun j => j_id j).
        -- unfold agrees. cbn. now rewrite upd_same.
      * intros t I. apply OLD; auto. intros J. apply U2. rewrite <- J. now apply in_map with (f := fun t => j_id (t_job t)).
      * intros k. destruct (Nat.eq_dec k i) as [->|N].
        -- intros _. left. rewrite map_app. apply in_or_app. right. now left.
        -- rewrite upd_other by auto. intros K. destruct (US k K) as [I|I]; auto. left. rewrite map_app. apply in_or_app. auto.
    + constructor; unfold qids, rids, oids, answer in *; cbn [queue running outcomes handle threads] in *; auto.
      * intros k I J. rewrite map_app in J. apply in_app_or in J. destruct J as [J|[<-|[]]]; [now apply (QN k)|auto].
      * intros t I L J. rewrite map_app in J. apply in_app_or in J. destruct J as [J|[J|[]]]; [now apply (RN t)|].
        apply U2. cbn in J. rewrite J. now apply in_map with (f := fun t => j_id (t_job t)).
      * intros t I L. apply in_or_app. auto.
      * rewrite map_app. apply nodup_insert; rewrite ?app_nil_r; auto.
      * intros k K. destruct (US k K) as [I|[I|I]]; auto. right. right. rewrite map_app. apply in_or_app. auto.
  - inversion E; subst s'; clear E. cbn [handle_after calls_after]. unfold direct. destruct (handle s w); [|now constructor].
    constructor; unfold qids, rids, oids, set_files in *; cbn [queue running outcomes handle threads] in *; auto.
  - destruct (unused s i) eqn:U; [|discriminate]. apply unused_spec in U. destruct U as (U1 & U2 & U3). inversion E; subst s'; clear E.
    cbn [handle_after calls_after].
    constructor; unfold qids, rids, oids, set_queue in *; cbn [queue running outcomes handle threads] in *; auto.
    + rewrite map_app. cbn [map j_id]. rewrite <- app_assoc. apply nodup_insert; auto. intros I. apply in_app_or in I. tauto.
    + intros k I. rewrite map_app in I. apply in_app_or in I. destruct I as [I|[<-|[]]]; auto.
    + intros j I. apply in_app_or in I. destruct I as [I|[<-|[]]]; auto. unfold agrees. cbn.
      destruct (calls i) eqn:C; auto. destruct (US i) as [I|[I|I]]; try congruence; tauto.
    + intros k K. destruct (US k K) as [I|I]; auto. left. rewrite map_app. apply in_or_app. auto.
  - inversion E; subst s'; clear E. cbn [handle_after calls_after].
    set (g := fun t : @thread Op => if is_wait e (t_job t) then mkTh (t_job t) true (left t) else t).
    assert (G : forall t, t_job (g t) = t_job t /\ left (g t) = left t) by (intros t; unfold g; destruct (is_wait e (t_job t)); auto).
    assert (RI : map (fun t => j_id (t_job t)) (map g (running s)) = map (fun t => j_id (t_job t)) (running s)).
    { rewrite map_map. apply map_ext. intros t. now destruct (G t) as [-> _]. }
    constructor; unfold qids, rids, oids, set_flag in *; cbn [queue running outcomes handle threads] in *; fold g; auto; rewrite ?RI; auto.
    + intros t I. apply in_map_iff in I. destruct I as (u & <- & I). destruct (G u) as [-> ->]. now apply RN.
    + intros t I. apply in_map_iff in I. destruct I as (u & <- & I). destruct (G u) as [-> ->]. now apply RL.
    + intros t I. apply in_map_iff in I. destruct I as (u & <- & I). destruct (G u) as [-> _]. now apply RJ.
    + intros t I. apply in_map_iff in I. destruct I as (u & <- & I). destruct (G u) as [-> _]. unfold g. destruct (is_wait e (t_job u)); [discriminate|]. now apply RD.
    + now rewrite map_length.
  - inversion E; subst s'; clear E. cbn [handle_after calls_after]. constructor; unfold qids, rids, oids, set_flag in *; cbn [queue running outcomes handle threads] in *; auto.
  - destruct (queue s) as [|j q] eqn:Q; [discriminate|]. destruct (Nat.ltb_spec (length (running s)) (threads s)); [|discriminate].
    inversion E; subst s'; clear E. cbn [handle_after calls_after].
    constructor; unfold qids, rids, oids in *; cbn [queue running outcomes handle threads] in *; rewrite ?Q in *; auto.
    + rewrite map_app. cbn [map begin t_job]. rewrite app_assoc. cbn [map app] in ND. inversion ND; subst. apply nodup_insert; rewrite ?app_nil_r; auto.
    + intros k I. apply QN. now right.
    + intros t I L. apply in_app_or in I. destruct I as [I|[<-|[]]]; auto. apply QN. now left.
    + intros t I L. apply in_app_or in I. destruct I as [I|[<-|[]]]; auto. discriminate.
    + intros k I. apply QJ. now right.
    + intros t I. apply in_app_or in I. destruct I as [I|[<-|[]]]; auto. apply QJ. now left.
    + intros k K. rewrite map_app. destruct (US k K) as [[I|I]|[I|I]]; auto.
      * subst. right. left. apply in_or_app. right. now left.
      * right. left. apply in_or_app. auto.
    + intros t I L. apply in_app_or in I. destruct I as [I|[<-|[]]]; auto. unfold begin in *. cbn in *. destruct (j_what j); [discriminate|eauto].
    + rewrite app_length. cbn. lia.
  - destruct (take i (running s)) as [[t r]|] eqn:T; [|discriminate]. destruct (ready t) eqn:RT; [|discriminate]. inversion E; subst s'; clear E.
    cbn [handle_after calls_after]. apply take_spec in T. destruct T as (Ti & a & b & Ra & -> & _).
    assert (IT : In t (running s)) by (rewrite Ra; apply in_or_app; right; now left).
    assert (SUB : forall u, In u (a ++ b) -> In u (running s)) by (intros u; rewrite Ra, !in_app_iff; cbn; tauto).
    assert (ND' : NoDup (qids s ++ map (fun t => j_id (t_job t)) (a ++ b)) /\ ~ In i (qids s ++ map (fun t => j_id (t_job t)) (a ++ b))).
    { unfold rids in ND. rewrite Ra, map_app in ND. cbn [map] in ND. rewrite Ti, app_assoc in ND. rewrite map_app, app_assoc.
      split; [now apply NoDup_remove_1 in ND|now apply NoDup_remove_2 in ND]. }
    destruct ND' as (ND1 & ND2).
    assert (NI : ~ In i (qids s)) by (intros I; apply ND2; apply in_or_app; auto).
    assert (NR : forall u, In u (a ++ b) -> j_id (t_job u) <> i).
    { intros u I J. apply ND2. apply in_or_app. right. rewrite <- J. now apply in_map with (f := fun t => j_id (t_job t)). }
    assert (LEN : length (a ++ b) <= threads s) by (rewrite Ra in RM; rewrite app_length in *; cbn in RM; lia).
    assert (WHERE : forall k, calls k <> None -> In k (qids s) \/ k = i \/ In k (map (fun t => j_id (t_job t)) (a ++ b)) \/ In k (oids s)).
    { intros k K. destruct (US k K) as [I|[I|I]]; auto. unfold rids in I. rewrite Ra, map_app in I. apply in_app_or in I.
      rewrite map_app. destruct I as [I|[I|I]]; [right; right; left; apply in_or_app; auto|right; left; congruence|right; right; left; apply in_or_app; auto]. }
    (* both kinds of operation: the same, up to the files *)
    assert (BOTH : forall fs v, Inv h calls ((if left t then (fun s (_ : @outcome R) => s) else fun s o => answer s (j_id (t_job t)) o)
                     (mkSt (threads s) fs (handle s) (flag s) (queue s) (a ++ b) (outcomes s)) v)).
    { intros fs v. destruct (left t) eqn:L.
      - constructor; unfold qids, rids, oids in *; cbn [queue running outcomes handle threads] in *; auto.
        intros k K. destruct (WHERE k K) as [I|[->|[I|I]]]; auto. right. right. apply (in_map fst) with (x := (i, CancelledError)). rewrite <- Ti. now apply RL.
      - constructor; unfold qids, rids, oids, answer in *; cbn [queue running outcomes handle threads] in *; rewrite ?Ti in *; auto.
        + intros k I J. rewrite map_app in J. apply in_app_or in J. destruct J as [J|[<-|[]]]; [now apply (QN k)|auto].
        + intros u I Lu J. rewrite map_app in J. apply in_app_or in J. destruct J as [J|[J|[]]]; [now apply (RN u (SUB u I))|]. now apply (NR u I).
        + intros u I Lu. apply in_or_app. left. now apply RL; auto.
        + rewrite map_app. apply nodup_insert; rewrite ?app_nil_r; auto. cbn. rewrite <- Ti. now apply RN.
        + intros k K. rewrite (map_app fst). destruct (WHERE k K) as [I|[->|[I|I]]]; auto; right; right; apply in_or_app; cbn; auto. }
    unfold finish. destruct (j_what (t_job t)) as [f o|e].
    + destruct (exec (files s f) o) as [f' v]. specialize (BOTH (upd (files s) f f') (Value v)). now destruct (left t).
    + specialize (BOTH (files s) WasSet). now destruct (left t).
  - cbn [handle_after calls_after]. destruct (existsb (fun j => j_id j =? i) (queue s)) eqn:X.
    + inversion E; subst s'; clear E. apply existsb_exists in X. destruct X as (j & Ij & Ej). apply Nat.eqb_eq in Ej.
      assert (IQ : In i (qids s)) by (rewrite <- Ej; now apply in_map with (f := fun j => j_id j)).
      assert (FQ : forall k, In k (map (fun j => j_id j) (filter (fun j => negb (j_id j =? i)) (queue s))) <-> In k (qids s) /\ k <> i).
      { intros k. unfold qids. rewrite !in_map_iff. split.
        - intros (y & <- & I). apply filter_In in I. destruct I as [I N]. apply negb_true_iff, Nat.eqb_neq in N. split; eauto.
        - intros ((y & <- & I) & N). exists y. split; auto. apply filter_In. split; auto. now apply negb_true_iff, Nat.eqb_neq. }
      assert (NR : ~ In i (rids s)).
      { intros I. clear -ND IQ I. induction (qids s) as [|y l IH]; [destruct IQ|]. cbn in ND. inversion ND; subst. destruct IQ as [->|IQ]; auto. apply H1. apply in_or_app. auto. }
      assert (NO : ~ In i (oids s)) by now apply QN.
      constructor; unfold qids, rids, oids, answer, set_queue in *; cbn [queue running outcomes handle threads] in *; auto.
      * clear -ND. revert ND. generalize (map (fun t : @thread Op => j_id (t_job t)) (running s)) as r. induction (queue s) as [|y q IH]; cbn; intros r ND; auto.
        inversion ND; subst. destruct (negb (j_id y =? i)); auto. cbn. constructor; auto. intros I. apply H1. apply in_app_or in I. apply in_or_app. destruct I as [I|I]; auto.
        left. apply in_map_iff in I. destruct I as (z & <- & I). apply filter_In in I. now apply in_map with (f := fun j => j_id j).
      * intros k I J. apply FQ in I. rewrite map_app in J. apply in_app_or in J. destruct J as [J|[J|[]]]; [now apply (QN k)|]. cbn in J. destruct I; congruence.
      * intros t I L J. rewrite map_app in J. apply in_app_or in J. destruct J as [J|[J|[]]]; [now apply (RN t)|]. apply NR. cbn in J. rewrite J. now apply in_map with (f := fun t => j_id (t_job t)).
      * intros t I L. apply in_or_app. auto.
      * rewrite map_app. apply nodup_insert; rewrite ?app_nil_r; auto.
      * intros y I. apply filter_In in I. now apply QJ.
      * intros k K. rewrite map_app, FQ. destruct (Nat.eq_dec k i) as [->|N]; [right; right; apply in_or_app; right; now left|].
        destruct (US k K) as [I|[I|I]]; auto. right. right. apply in_or_app. auto.
    + destruct (take i (running s)) as [[t r]|] eqn:T; [|discriminate]. destruct (left t) eqn:L; [discriminate|]. inversion E; subst s'; clear E.
      apply take_spec in T. destruct T as (Ti & a & b & Ra & _ & _).
      assert (IT : In t (running s)) by (rewrite Ra; apply in_or_app; right; now left).
      set (g := fun t : @thread Op => if with_id i t then mkTh (t_job t) (ready t) true else t).
      assert (G : forall t, t_job (g t) = t_job t /\ ready (g t) = ready t) by (intros u; unfold g; destruct (with_id i u); auto).
      assert (GL : forall u, left (g u) = if j_id (t_job u) =? i then true else left u) by (intros u; unfold g, with_id; destruct (j_id (t_job u) =? i); auto).
      assert (RI : map (fun t => j_id (t_job t)) (map g (running s)) = map (fun t => j_id (t_job t)) (running s)).
      { rewrite map_map. apply map_ext. intros u. now destruct (G u) as [-> _]. }
      assert (NQ : ~ In i (qids s)).
      { intros I. unfold qids in I. apply in_map_iff in I. destruct I as (y & Y & I). assert (existsb (fun j => j_id j =? i) (queue s) = true); [|congruence].
        apply existsb_exists. exists y. split; auto. now apply Nat.eqb_eq. }
      constructor; unfold qids, rids, oids, answer in *; cbn [queue running outcomes handle threads] in *; fold g; rewrite ?RI; auto.
      * intros k I J. rewrite map_app in J. apply in_app_or in J. destruct J as [J|[J|[]]]; [now apply (QN k)|]. cbn in J. congruence.
      * intros u I. apply in_map_iff in I. destruct I as (y & <- & I). rewrite GL. destruct (G y) as [-> _]. destruct (Nat.eqb_spec (j_id (t_job y)) i); [discriminate|].
        intros Ly J. rewrite map_app in J. apply in_app_or in J. destruct J as [J|[J|[]]]; [now apply (RN y)|]. cbn in J. congruence.
      * intros u I. apply in_map_iff in I. destruct I as (y & <- & I). rewrite GL. destruct (G y) as [-> _]. intros Ly. apply in_or_app.
        destruct (Nat.eqb_spec (j_id (t_job y)) i) as [->|]; [right; now left|left; now apply RL].
      * rewrite map_app. apply nodup_insert; rewrite ?app_nil_r; auto. cbn. rewrite <- Ti. now apply RN.
      * intros u I. apply in_map_iff in I. destruct I as (y & <- & I). destruct (G y) as [-> _]. now apply RJ.
      * intros k K. rewrite map_app. destruct (US k K) as [I|[I|I]]; auto. right. right. apply in_or_app. auto.
      * intros u I. apply in_map_iff in I. destruct I as (y & <- & I). destruct (G y) as [-> ->]. now apply RD.
      * now rewrite map_length.
  - inversion E; subst s'; clear E. cbn [handle_after calls_after]. rewrite <- H. constructor; unfold qids, rids, oids in *; cbn [queue running outcomes handle threads] in *; auto.
Qed.


Lemma inv_fresh k fs h : Inv h nothing (fresh k fs h).
Proof.
  constructor; unfold qids, rids, oids; cbn; auto; try (intros ? []); try constructor; try (intros ? ? ; contradiction).
  all: try (intros; contradiction). all: try (unfold nothing; congruence). apply Nat.le_0_l.
Qed.

Lemma run_app s a b : run s (a ++ b) = match run s a with Some s' => run s' b | None => None end.
Proof. revert s. induction a as [|x a IH]; intros s; [reflexivity|]. cbn [app AFileModel.run]. destruct (step s x); auto. Qed.

Definition h_end (h : nat -> option nat) (tr : list event) : nat -> option nat := fold_left handle_after tr h.
Lemma inv_run h calls s tr s' : Inv h calls s -> run s tr = Some s' -> exists calls', Inv (h_end h tr) calls' s'.
Proof.
  revert h calls s. induction tr as [|x tr IH]; intros h calls s I E; cbn [AFileModel.run] in E.
  - inversion E; subst. exists calls. exact I.
  - destruct (step s x) as [s1|] eqn:S; [|discriminate]. eapply IH; [|exact E]. eapply inv_step; eauto.
Qed.

Lemma sync_app x a b : sync x (a ++ b) = sync (sync x a) b.
Proof. revert x. induction a as [|o a IH]; intros x; cbn; auto. Qed.
Lemma on_app f (a b : list (nat * option nat * Op)) : on f (a ++ b) = on f a ++ on f b.
Proof. induction a as [|[[g i] o] a IH]; cbn; auto. destruct (g =? f); cbn; now rewrite IH. Qed.

Lemma step_effect h calls s x s' : Inv h calls s -> step s x = Some s' ->
  (forall f, files s' f = sync (files s f) (map snd (on f (entry h calls x)))) /\
  (exists new, outcomes s' = outcomes s ++ new /\
     forall i v, In (i, Value v) new -> exists f o, entry h calls x = [(f, Some i, o)] /\ v = snd (exec (files s f) o)) /\
  (forall f i o, In (f, Some i, o) (entry h calls x) -> (exists v, In (i, Value v) (outcomes s')) \/ In (i, CancelledError) (outcomes s')).
Proof.
  intros I E. destruct x as [i w o|w o|i e|e|e| |i|i|w]; cbn [AFileModel.step entry] in *.
  - destruct (unused s i); [|discriminate]. inversion E; subst s'; clear E. unfold call. destruct (handle s w); cbn.
    + split; [reflexivity|]. split; [exists []; rewrite app_nil_r; split; [reflexivity|intros ? ? []]|intros ? ? ? []].
    + split; [reflexivity|]. split; [eexists; split; [reflexivity|]|intros ? ? ? []]. intros k v [Q|[]]. discriminate.
  - inversion E; subst s'; clear E. unfold direct. rewrite (i_handle _ _ _ I). destruct (h w) as [f|].
    + unfold set_files. cbn. split; [|split].
      * intros g. unfold upd. destruct (Nat.eqb_spec g f) as [->|N]; [now rewrite Nat.eqb_refl|]. destruct (Nat.eqb_spec f g); [congruence|reflexivity].
      * exists []; rewrite app_nil_r; split; [reflexivity|intros ? ? []].
      * intros g j o' [Q|[]]. discriminate.
    + cbn. split; [reflexivity|]. split; [exists []; rewrite app_nil_r; split; [reflexivity|intros ? ? []]|intros ? ? ? []].
  - destruct (unused s i); [|discriminate]. inversion E; subst s'; clear E. cbn.
    split; [reflexivity|]. split; [exists []; rewrite app_nil_r; split; [reflexivity|intros ? ? []]|intros ? ? ? []].
  - inversion E; subst s'; clear E. cbn. split; [reflexivity|]. split; [exists []; rewrite app_nil_r; split; [reflexivity|intros ? ? []]|intros ? ? ? []].
  - inversion E; subst s'; clear E. cbn. split; [reflexivity|]. split; [exists []; rewrite app_nil_r; split; [reflexivity|intros ? ? []]|intros ? ? ? []].
  - destruct (queue s); [discriminate|]. destruct (_ <? _); [|discriminate]. inversion E; subst s'; clear E. cbn.
    split; [reflexivity|]. split; [exists []; rewrite app_nil_r; split; [reflexivity|intros ? ? []]|intros ? ? ? []].
  - destruct (take i (running s)) as [[t r]|] eqn:T; [|discriminate]. destruct (ready t); [|discriminate]. inversion E; subst s'; clear E.
    apply take_spec in T. destruct T as (Ti & a & b & Ra & _ & _).
    assert (IT : In t (running s)) by (rewrite Ra; apply in_or_app; right; now left).
    pose proof (i_rj _ _ _ I t IT) as A. unfold agrees in A. rewrite Ti in A. pose proof (i_r_left _ _ _ I t IT) as L. rewrite Ti in L.
    unfold finish. rewrite A. destruct (j_what (t_job t)) as [f o|e].
    + destruct (exec (files s f) o) as [f' v] eqn:X. rewrite Ti. split; [|split].
      * intros g. assert (files (if left t then mkSt (threads s) (upd (files s) f f') (handle s) (flag s) (queue s) r (outcomes s)
            else answer (mkSt (threads s) (upd (files s) f f') (handle s) (flag s) (queue s) r (outcomes s)) i (Value v)) g = upd (files s) f f' g) as -> by now destruct (left t).
        unfold upd. cbn. destruct (Nat.eqb_spec g f) as [->|N]; [rewrite Nat.eqb_refl; cbn; now rewrite X|]. destruct (Nat.eqb_spec f g); [congruence|reflexivity].
      * destruct (left t); cbn; [exists []; rewrite app_nil_r; split; [reflexivity|intros ? ? []]|].
        eexists. split; [reflexivity|]. intros k u [Q|[]]. inversion Q; subst. exists f, o. split; [reflexivity|]. now rewrite X.
      * intros g k o' [Q|[]]. inversion Q; subst. destruct (left t); cbn; [right; auto|]. left. exists v. apply in_or_app. right. now left.
    + rewrite Ti. split; [|split].
      * intros g. now destruct (left t).
      * destruct (left t); cbn; [exists []; rewrite app_nil_r; split; [reflexivity|intros ? ? []]|].
        eexists. split; [reflexivity|]. intros k u [Q|[]]. discriminate.
      * intros ? ? ? [].
  - destruct (existsb _ _).
    + inversion E; subst s'; clear E. cbn. split; [reflexivity|]. split; [eexists; split; [reflexivity|]; intros k v [Q|[]]; discriminate|intros ? ? ? []].
    + destruct (take i (running s)) as [[t r]|]; [|discriminate]. destruct (left t); [discriminate|]. inversion E; subst s'; clear E. cbn.
      split; [reflexivity|]. split; [eexists; split; [reflexivity|]; intros k v [Q|[]]; discriminate|intros ? ? ? []].
  - inversion E; subst s'; clear E. cbn. split; [reflexivity|]. split; [exists []; rewrite app_nil_r; split; [reflexivity|intros ? ? []]|intros ? ? ? []].
Qed.

Lemma linear h calls s tr s' : Inv h calls s -> run s tr = Some s' ->
  let H := history h calls tr in
  (forall f, files s' f = sync (files s f) (map snd (on f H))) /\
  (exists new, outcomes s' = outcomes s ++ new /\
     forall i v, In (i, Value v) new -> exists f o pre post, H = pre ++ (f, Some i, o) :: post /\ v = snd (exec (sync (files s f) (map snd (on f pre))) o)) /\
  (forall f i o, In (f, Some i, o) H -> (exists v, In (i, Value v) (outcomes s')) \/ In (i, CancelledError) (outcomes s')).
Proof.
  revert h calls s. induction tr as [|x tr IH]; intros h calls s I E; cbv zeta.
  - cbn in E. inversion E; subst. cbn. split; [reflexivity|]. split; [exists []; rewrite app_nil_r; split; [reflexivity|intros ? ? []]|intros ? ? ? []].
  - cbn [AFileModel.run] in E. destruct (step s x) as [s1|] eqn:S; [|discriminate]. rewrite history_cons.
    destruct (step_effect _ _ _ _ _ I S) as (A & (n1 & B & B') & C). pose proof (inv_step _ _ _ _ _ I S) as I1.
    destruct (IH _ _ _ I1 E) as (A2 & (n2 & B2 & B2') & C2). split; [|split].
    + intros f. rewrite A2, A, on_app, map_app, sync_app. reflexivity.
    + exists (n1 ++ n2). rewrite B2, B, app_assoc. split; [reflexivity|]. intros i v J. apply in_app_or in J. destruct J as [J|J].
      * destruct (B' i v J) as (f & o & Q & V). exists f, o, [], (history (handle_after h x) (calls_after h calls x) tr). rewrite Q. split; [reflexivity|exact V].
      * destruct (B2' i v J) as (f & o & pre & post & Q & V). exists f, o, (entry h calls x ++ pre), post. rewrite Q, <- app_assoc. split; [reflexivity|].
        rewrite V, A, on_app, map_app, sync_app. reflexivity.
    + intros f i o J. apply in_app_or in J. destruct J as [J|J]; [|now apply (C2 f i o)].
      destruct (C f i o J) as [(v & V)|V]; [left; exists v|right]; rewrite B2; apply in_or_app; auto.
Qed.

End Proofs.
