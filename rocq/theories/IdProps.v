(** * C81: Ids that are made up do not repeat

    How to read.  [ids w]: the ids of actors, messages, buffers and files that all processes have made.  Proved: no process
    ever makes an id twice (C81_one_process); no two processes make the same one if no process is forked after its first id and
    no two seeds that users give to Python's random are the same (C81_distinct_partial).  False otherwise: a forked
    child repeats the ids of its parent (C81_fork_refuted), and so do two processes in which the user has called random.seed with
    the same number before the first id (C81_seed_refuted); an actor that the second creates without a uid then collides with an actor of the first. *)
From Coq Require Import List Arith Lia Bool.
From Verif Require Import IdModel.
Import ListNotations.

(** ** Specification *)
Definition ids (w : world) : list (list word) := map snd (made w).
Definition ids_of (p : nat) (w : world) : list (list word) := map snd (filter (fun x => fst x =? p) (made w)).
Definition user_seeds (h : list event) : list nat := flat_map (fun e => match e with Seed _ k => [k] | _ => [] end) h.
Definition forked_before_ids (h : list event) : Prop := forall h1 p q h2, h = h1 ++ Fork p q :: h2 -> ~ In (NewId p) h1 /\ ~ In (SubPool p) h1.
Definition no_fork (h : list event) : Prop := forall p q, ~ In (Fork p q) h.

(** ** Lemmas *)
Definition old (f : nat) (ks : list nat) (o : origin) : Prop := match o with Entropy n | Uuid n => n < f | User k => In k ks end.
Definition the_words (s : seed) (n : nat) : list word := [(s, n + 0); (s, n + 1); (s, n + 2); (s, n + 3)].
Lemma new_id_eq x : exists s n, gen (ready x) = Some (s, n) /\ new_id x = (the_words s n, mkP (from (ready x)) (draws (ready x)) (Some (s, n + 4))).
Proof.
  unfold new_id, ready, reset. destruct (gen x) as [[s n]|] eqn:G.
  - exists s, n. rewrite G. auto.
  - exists (from x, draws x), 0. cbn. auto.
Qed.
Lemma run_snoc w h e : run w (h ++ [e]) = match run w h with Some w' => step w' e | None => None end.
Proof. revert w. induction h as [|a h IH]; intros w; cbn; [now destruct (step w e)|]. destruct (step w a); auto. Qed.

(** *** One process *)
Definition olt (f : nat) (o : origin) : Prop := match o with Uuid m => m < f | _ => True end.
Lemma olt_le f g o : f <= g -> olt f o -> olt g o.
Proof. destruct o; cbn; lia. Qed.
Lemma words_eq s n s' n' : the_words s n = the_words s' n' -> s = s' /\ n = n'.
Proof. unfold the_words. intros E. injection E. intros. split; auto. lia. Qed.
Definition one (w : world) : Prop :=
  (forall p x, procs w p = Some x -> olt (fresh w) (from x) /\ forall s n, gen x = Some (s, n) -> olt (fresh w) (fst s)) /\
  (forall p i, In (p, i) (made w) -> exists s n, i = the_words s n /\ olt (fresh w) (fst s) /\
      exists x s' n', procs w p = Some x /\ gen x = Some (s', n') /\ (s' = s -> n + 4 <= n')) /\
  forall p, NoDup (ids_of p w).
Lemma one_upd w p y f : one w -> fresh w <= f -> olt f (from y) -> (forall s n, gen y = Some (s, n) -> olt f (fst s)) ->
   (forall x, procs w p = Some x -> gen x = None \/ gen y = gen x \/ exists m d, gen y = Some ((Uuid m, d), 0) /\ fresh w <= m) -> one (mkW (upd (procs w) p y) f (made w)).
Proof.
  intros (A & B & C) F G0 G H. split; [|split]; cbn [procs fresh made].
  - intros q z Q. unfold upd in Q. destruct (q =? p); [injection Q as <-; auto|]. destruct (A q z Q) as [A1 A2]. split; [eapply olt_le; eauto|intros s n Z; eapply olt_le; eauto].
  - intros q i I. destruct (B q i I) as (s & n & E1 & L & z & s' & n' & Q & Z & O). exists s, n. split; auto. split; [eapply olt_le; eauto|].
    unfold upd. destruct (q =? p) eqn:X; [|eauto 8]. apply Nat.eqb_eq in X as ->.
    destruct (H z Q) as [D|[D|(m & d & D & M)]]; [congruence|exists y, s', n'; rewrite D; auto|exists y, (Uuid m, d), 0; repeat split; auto]. intros <-. cbn in L. lia.
  - exact C.
Qed.
Lemma NoDup_snoc {A} (l : list A) a : NoDup l -> ~ In a l -> NoDup (l ++ [a]).
Proof.
  intros N I. induction N as [|b l NI N IH]; cbn; [constructor; auto; constructor|]. constructor; [|apply IH; intros J; apply I; now right].
  intros J. apply in_app_or in J as [J|[<-|[]]]; auto. apply I. now left.
Qed.
Lemma in_ids_of p w i : In i (ids_of p w) -> In (p, i) (made w).
Proof. unfold ids_of. intros I. apply in_map_iff in I as ([q j] & <- & I). apply filter_In in I as [I E]. apply Nat.eqb_eq in E. cbn in *. now subst. Qed.
Lemma one_step w e w' : one w -> step w e = Some w' -> one w'.
Proof.
  intros O E. pose proof O as (A & B & C). destruct e; cbn in E.
  - destruct (procs w p) eqn:P; [discriminate|]. injection E as <-. apply one_upd; cbn; auto; try discriminate. congruence.
  - destruct (procs w p) as [x|] eqn:P; [|discriminate]. destruct (procs w q) eqn:Q; [discriminate|]. injection E as <-. destruct (A p x P) as [A1 A2]. apply one_upd; cbn; auto; [|congruence].
    intros s n G. apply (olt_le (fresh w)); eauto.
  - destruct (procs w p) as [x|] eqn:P; [|discriminate]. injection E as <-. destruct (A p x P) as [A1 A2]. apply one_upd; cbn; auto. intros x' X. right. left. congruence.
  - destruct (procs w p) as [x|] eqn:P; [|discriminate]. injection E as <-. destruct (A p x P) as [A1 A2]. apply one_upd; cbn; auto. intros x' X. right. left. congruence.
  - destruct (procs w p) as [x|] eqn:P; [|discriminate]. injection E as <-. apply one_upd; cbn; auto.
    + intros s n [= <- <-]. cbn. lia.
    + intros x' _. right. right. eauto.
  - destruct (procs w p) as [x|] eqn:P; [|discriminate]. cbn [option_map] in E. destruct (new_id_eq x) as (s & n & G & N). rewrite N in E. injection E as <-. destruct (A p x P) as [A1 A2].
    assert (R : from (ready x) = from x) by (unfold ready; destruct (gen x); reflexivity).
    assert (U : olt (fresh w) (fst s)).
    { unfold ready in G. destruct (gen x) as [[s0 n0]|] eqn:X; [rewrite X in G; injection G as -> ->; eauto|injection G as <- <-; exact A1]. }
    assert (V : forall i, In (p, i) (made w) -> exists s0 n0, i = the_words s0 n0 /\ olt (fresh w) (fst s0) /\ (s = s0 -> n0 + 4 <= n)).
    { intros i I. destruct (B p i I) as (s0 & n0 & -> & L & z & s' & n' & Q & Z & M). rewrite P in Q. injection Q as <-. unfold ready in G. rewrite Z in G. rewrite Z in G. injection G as -> ->. eauto. }
    split; [|split]; cbn [procs fresh made].
    + intros q z Q. unfold upd in Q. destruct (q =? p); [|now apply (A q)]. injection Q as <-. cbn. rewrite R. split; auto. intros ? ? [= <- <-]. exact U.
    + intros q i I. unfold upd. apply in_app_or in I as [I|[I|[]]].
      * destruct (q =? p) eqn:X; [|now apply B]. apply Nat.eqb_eq in X as ->. destruct (V i I) as (s0 & n0 & -> & L & M). exists s0, n0. repeat split; auto.
        eexists _, s, (n + 4). split; [reflexivity|split; [reflexivity|]]. intros X. apply M in X. lia.
      * injection I as <- <-. rewrite Nat.eqb_refl. exists s, n. repeat split; auto. eexists _, s, (n + 4). split; [reflexivity|split; [reflexivity|lia]].
    + intros q. unfold ids_of. cbn [made]. rewrite filter_app, map_app. cbn. destruct (p =? q) eqn:X; cbn; [|rewrite app_nil_r; apply C].
      apply Nat.eqb_eq in X as <-. apply NoDup_snoc; [apply C|]. intros I. apply (in_ids_of p w) in I. destruct (V _ I) as (s0 & n0 & W & _ & M). apply words_eq in W as [-> ->]. specialize (M eq_refl). lia.
Qed.
Theorem C81_one_process : forall h w p, run start h = Some w -> NoDup (ids_of p w).
Proof.
  intros h w p R. enough (one w) by apply H. revert w R. induction h as [|e h IH] using rev_ind; intros w R.
  - injection R as <-. split; [|split]; cbn; try discriminate; try tauto. intros; constructor.
  - rewrite run_snoc in R. destruct (run start h) as [v|] eqn:V; [|discriminate]. apply (one_step v e); auto.
Qed.

(** *** All processes *)
Definition past (w : world) (ks : list nat) (s : seed) : Prop :=
  old (fresh w) ks (fst s) /\ forall q y, procs w q = Some y -> from y = fst s -> snd s < draws y.
Record all (w : world) (ks : list nat) (busy : list nat) : Prop := mkAll {
  a_old : forall p x, procs w p = Some x -> old (fresh w) ks (from x);
  a_from : forall p q x y, procs w p = Some x -> procs w q = Some y -> from x = from y -> p = q;
  a_past : forall p x s n, procs w p = Some x -> gen x = Some (s, n) -> past w ks s;
  a_gen : forall p q x y s n m, procs w p = Some x -> procs w q = Some y -> gen x = Some (s, n) -> gen y = Some (s, m) -> p = q;
  a_made : forall p i, In (p, i) (made w) -> exists s n, i = the_words s n /\ past w ks s /\ forall q y m, procs w q = Some y -> gen y = Some (s, m) -> n + 4 <= m;
  a_ids : NoDup (ids w);
  a_busy : forall p x, procs w p = Some x -> gen x <> None -> In p busy }.
Lemma old_le f g ks ks' o : f <= g -> incl ks ks' -> old f ks o -> old g ks' o.
Proof. destruct o; cbn; intros; auto; lia. Qed.
Lemma all_upd w ks busy p y f ks' busy' : all w ks busy -> fresh w <= f -> incl ks ks' -> incl busy busy' -> old f ks' (from y) ->
  (~ old (fresh w) ks (from y) \/ exists x, procs w p = Some x /\ from y = from x /\ draws x <= draws y) ->
  (gen y = None \/ (exists x, procs w p = Some x /\ gen y = gen x) \/
   exists d, gen y = Some ((from y, d), 0) /\ d < draws y /\ (~ old (fresh w) ks (from y) \/ exists x, procs w p = Some x /\ from y = from x /\ draws x <= d)) ->
  (gen y <> None -> In p busy') -> all (mkW (upd (procs w) p y) f (made w)) ks' busy'.
Proof.
  intros I F KI BI Y1 Y2 Y3 Y4.
  assert (D : forall q z, q <> p -> procs w q = Some z -> from z <> from y).
  { intros q z N Q E. destruct Y2 as [Y2|(x & P & E' & _)]; [apply Y2; rewrite <- E; eapply a_old; eauto|]. apply N. eapply (a_from _ _ _ I); eauto. congruence. }
  assert (L : forall s, past w ks s -> past (mkW (upd (procs w) p y) f (made w)) ks' s).
  { intros s [O T]. split; cbn [procs fresh]; [eapply old_le; eauto|]. intros q z Q E. unfold upd in Q. destruct (q =? p); [|eauto]. injection Q as <-.
    destruct Y2 as [Y2|(x & P & E' & Le)]; [rewrite E in Y2; contradiction|]. rewrite E' in E. specialize (T p x P E). lia. }
  assert (G : forall s n, gen y = Some (s, n) -> (exists x, procs w p = Some x /\ gen x = Some (s, n)) \/ (past (mkW (upd (procs w) p y) f (made w)) ks' s /\ ~ past w ks s)).
  { intros s n E. destruct Y3 as [Y3|[(x & P & Y3)|(d & Y3 & Lt & Y5)]]; [congruence|left; exists x; split; congruence|right]. rewrite Y3 in E. injection E as <- <-. split.
    - split; cbn [procs fresh fst snd]; auto. intros q z Q E. unfold upd in Q. destruct (Nat.eqb_spec q p) as [->|N]; [injection Q as <-; auto|]. now destruct (D q z N Q).
    - intros [O T]. cbn [fst snd] in *. destruct Y5 as [Y5|(x & P & E & Le)]; [auto|]. specialize (T p x P (eq_sym E)). lia. }
  constructor; cbn [procs fresh made].
  - intros q z Q. unfold upd in Q. destruct (q =? p); [injection Q as <-; auto|]. eapply old_le; eauto. eapply a_old; eauto.
  - intros q r z t Q R E. unfold upd in Q, R. destruct (Nat.eqb_spec q p) as [->|N], (Nat.eqb_spec r p) as [->|M]; auto.
    + injection Q as <-. now destruct (D r t M R).
    + injection R as <-. now destruct (D q z N Q).
    + eapply (a_from _ _ _ I); eauto.
  - intros q z s n Q E. unfold upd in Q. destruct (q =? p); [|apply L; eapply a_past; eauto]. injection Q as <-. destruct (G s n E) as [(x & P & X)|[H _]]; auto. apply L. eapply a_past; eauto.
  - intros q r z t s n m Q R E1 E2. unfold upd in Q, R. destruct (Nat.eqb_spec q p) as [->|N], (Nat.eqb_spec r p) as [->|M]; auto.
    + injection Q as <-. destruct (G s n E1) as [(x & P & X)|[_ H]]; [eapply (a_gen _ _ _ I p r); eauto|]. destruct H. eapply a_past; eauto.
    + injection R as <-. destruct (G s m E2) as [(x & P & X)|[_ H]]; [eapply (a_gen _ _ _ I q p); eauto|]. destruct H. eapply a_past; eauto.
    + eapply (a_gen _ _ _ I q r); eauto.
  - intros q i J. destruct (a_made _ _ _ I q i J) as (s & n & E & T & M). exists s, n. split; auto. split; auto. intros r z m R Z. unfold upd in R. destruct (r =? p); [|eauto]. injection R as <-.
    destruct (G s m Z) as [(x & P & X)|[_ H]]; [eauto|contradiction].
  - apply I.
  - intros q z Q E. unfold upd in Q. destruct (Nat.eqb_spec q p) as [->|N]; [injection Q as <-; auto|]. apply BI. eapply a_busy; eauto.
Qed.
Lemma all_take w ks busy p x s n : all w ks busy -> procs w p = Some x -> gen x = Some (s, n) ->
  all (mkW (upd (procs w) p (mkP (from x) (draws x) (Some (s, n + 4)))) (fresh w) (made w ++ [(p, the_words s n)])) ks busy.
Proof.
  intros I P G. set (y := mkP _ _ _).
  assert (U : forall q z, upd (procs w) p y q = Some z -> exists z', procs w q = Some z' /\ from z = from z' /\ draws z = draws z' /\
     forall s' m, gen z = Some (s', m) -> exists m', gen z' = Some (s', m') /\ m' <= m /\ (q = p -> s' = s /\ m = n + 4)).
  { intros q z Q. unfold upd in Q. destruct (Nat.eqb_spec q p) as [->|N].
    - injection Q as <-. exists x. repeat split; auto. intros s' m [= <- <-]. exists n. repeat split; auto; lia.
    - exists z. repeat split; auto. intros s' m Z. exists m. repeat split; auto; contradiction. }
  assert (L : forall s', past w ks s' -> past (mkW (upd (procs w) p y) (fresh w) (made w ++ [(p, the_words s n)])) ks s').
  { intros s' [O T]. split; auto. cbn [procs]. intros q z Q E. destruct (U q z Q) as (z' & Q' & E1 & E2 & _). rewrite E2. eapply T; eauto. congruence. }
  constructor; cbn [procs fresh made].
  - intros q z Q. destruct (U q z Q) as (z' & Q' & E1 & _). rewrite E1. eapply a_old; eauto.
  - intros q r z t Q R E. destruct (U q z Q) as (z' & Q' & E1 & _), (U r t R) as (t' & R' & E2 & _). eapply (a_from _ _ _ I); eauto. congruence.
  - intros q z s' m Q E. destruct (U q z Q) as (z' & Q' & _ & _ & Z). destruct (Z s' m E) as (m' & E' & _). apply L. eapply a_past; eauto.
  - intros q r z t s' m m2 Q R E1 E2. destruct (U q z Q) as (z' & Q' & _ & _ & Z), (U r t R) as (t' & R' & _ & _ & T). destruct (Z _ _ E1) as (? & X & _), (T _ _ E2) as (? & Y & _). eapply (a_gen _ _ _ I); eauto.
  - intros q i J. apply in_app_or in J as [J|[J|[]]].
    + destruct (a_made _ _ _ I q i J) as (s' & m & E & T & M). exists s', m. split; auto. split; auto. intros r z k R Z. destruct (U r z R) as (z' & R' & _ & _ & V). destruct (V _ _ Z) as (k' & Z' & Le & _). specialize (M r z' k' R' Z'). lia.
    + injection J as <- <-. exists s, n. split; auto. split; [apply L; eapply a_past; eauto|]. intros r z k R Z. destruct (U r z R) as (z' & R' & _ & _ & V). destruct (V _ _ Z) as (k' & Z' & Le & H).
      assert (r = p) by (eapply (a_gen _ _ _ I); eauto). destruct (H H0). lia.
  - unfold ids. cbn [made]. rewrite map_app. apply NoDup_snoc; [apply I|]. intros J. apply in_map_iff in J as ([q i] & E & J). cbn in E. subst i.
    destruct (a_made _ _ _ I q _ J) as (s' & m & E & _ & M). apply words_eq in E as [<- <-]. specialize (M p x n P G). lia.
  - intros q z Q E. destruct (U q z Q) as (z' & Q' & _ & _ & V). destruct (gen z) as [[s' m]|] eqn:Z; [|congruence]. destruct (V _ _ eq_refl) as (m' & Z' & _). eapply a_busy; eauto. congruence.
Qed.
Definition touched (h : list event) : list nat := flat_map (fun e => match e with NewId p | SubPool p => [p] | _ => [] end) h.
Lemma in_touched h p : In p (touched h) -> In (NewId p) h \/ In (SubPool p) h.
Proof. unfold touched. rewrite in_flat_map. intros (e & I & J). destruct e; cbn in J; try tauto; destruct J as [->|[]]; auto. Qed.
Lemma upd_upd w f m p x y : forall q, procs (mkW (upd (upd (procs w) p x) p y) f m) q = procs (mkW (upd (procs w) p y) f m) q.
Proof. intros q. cbn. unfold upd. now destruct (q =? p). Qed.
Lemma all_ext w w' ks b : all w ks b -> (forall q, procs w q = procs w' q) -> fresh w = fresh w' -> made w = made w' -> all w' ks b.
Proof.
  intros I E F M. assert (L : forall s, past w ks s -> past w' ks s) by (intros s [O T]; split; [now rewrite <- F|intros q y; rewrite <- E; apply T]).
  destruct I as [a1 a2 a3 a4 a5 a6 a7]. constructor; intros *; rewrite <- ?E.
  - rewrite <- F. apply a1.
  - apply a2.
  - intros P G. apply L. eapply a3; eauto.
  - apply a4.
  - rewrite <- M. intros J. destruct (a5 p i J) as (s & n & X & Y & Z). exists s, n. repeat split; auto; [now apply L|now apply L|]. intros q y m. rewrite <- E. apply Z.
  - unfold ids. rewrite <- M. exact a6.
  - apply a7.
Qed.
Lemma all_step h w e w' : run start h = Some w -> all w (user_seeds h) (touched h) -> NoDup (user_seeds (h ++ [e])) -> forked_before_ids (h ++ [e]) -> step w e = Some w' -> all w' (user_seeds (h ++ [e])) (touched (h ++ [e])).
Proof.
  intros R I ND FB E. unfold user_seeds, touched in *. rewrite flat_map_app in *. rewrite flat_map_app. fold (user_seeds h) (touched h) in *. pose proof (a_old _ _ _ I) as AO.
  assert (IK : forall l, incl (user_seeds h) (user_seeds h ++ l)) by (intros l; apply incl_appl, incl_refl). assert (IB : forall l, incl (touched h) (touched h ++ l)) by (intros l; apply incl_appl, incl_refl).
  destruct e; cbn in E; cbn [flat_map] in *.
  - destruct (procs w p) eqn:P; [discriminate|]. injection E as <-. apply (all_upd w _ _ _ _ _ _ _ I); cbn; auto. left. lia. congruence.
  - destruct (procs w p) as [x|] eqn:P; [|discriminate]. destruct (procs w q) eqn:Q; [discriminate|]. injection E as <-.
    destruct (gen x) as [g|] eqn:G.
    + exfalso. destruct (FB h p q [] eq_refl) as [N1 N2]. assert (T : In p (touched h)) by (eapply a_busy; eauto; congruence). apply in_touched in T as [T|T]; auto.
    + apply (all_upd w _ _ _ _ _ _ _ I); cbn; auto. left. lia. congruence.
  - destruct (procs w p) as [x|] eqn:P; [|discriminate]. injection E as <-. apply (all_upd w _ _ _ _ _ _ _ I); cbn; auto.
    + apply in_or_app. right. now left.
    + left. apply NoDup_remove_2 in ND. now rewrite app_nil_r in ND.
    + right. left. eauto.
    + intros G. apply IB. eapply a_busy; eauto.
  - destruct (procs w p) as [x|] eqn:P; [|discriminate]. injection E as <-. apply (all_upd w _ _ _ _ _ _ _ I); cbn; auto.
    + eapply old_le; [| |eapply AO; eauto]; auto.
    + right. exists x. repeat split; auto.
    + right. left. eauto.
    + intros G. apply IB. eapply a_busy; eauto.
  - destruct (procs w p) as [x|] eqn:P; [|discriminate]. injection E as <-. apply (all_upd w _ _ _ _ _ _ _ I); cbn; auto.
    + left. lia.
    + right. right. exists 0. repeat split; auto. left. lia.
    + intros _. apply in_or_app. right. now left.
  - destruct (procs w p) as [x|] eqn:P; [|discriminate]. cbn [option_map] in E. destruct (new_id_eq x) as (s & n & G & N). rewrite N in E. injection E as <-.
    assert (J : all (mkW (upd (procs w) p (ready x)) (fresh w) (made w)) (user_seeds h ++ []) (touched h ++ [p])).
    { assert (K : from (ready x) = from x /\ draws x <= draws (ready x)) by (unfold ready; destruct (gen x); cbn; auto). destruct K as [K1 K2].
      apply (all_upd w _ _ _ _ _ _ _ I); auto.
      - rewrite K1. eapply old_le; [| |eapply AO; eauto]; auto.
      - right. exists x. auto.
      - right. unfold ready. destruct (gen x) eqn:X; [left; eauto|]. right. exists (draws x). cbn. repeat split; auto. right. exists x. auto.
      - intros _. apply in_or_app. right. now left. }
    refine (all_ext _ _ _ _ (all_take _ _ _ p (ready x) s n J _ G) _ _ _); cbn [procs fresh made]; auto.
    + unfold upd. now rewrite Nat.eqb_refl.
    + intros q. unfold upd. now destruct (q =? p).
Qed.
Lemma user_seeds_app a b : user_seeds (a ++ b) = user_seeds a ++ user_seeds b.
Proof. apply flat_map_app. Qed.
Theorem C81_distinct_partial : forall h w, run start h = Some w -> forked_before_ids h -> NoDup (user_seeds h) -> NoDup (ids w).
Proof.
  intros h w R FB ND. enough (all w (user_seeds h) (touched h)) by apply H. revert w R FB ND. induction h as [|e h IH] using rev_ind; intros w R FB ND.
  - injection R as <-. constructor; cbn; try discriminate; try tauto. constructor.
  - rewrite run_snoc in R. destruct (run start h) as [v|] eqn:V; [|discriminate]. apply (all_step h v e); auto. apply IH; auto.
    + intros h1 p q h2 ->. apply (FB h1 p q (h2 ++ [e])). now rewrite <- app_assoc.
    + rewrite user_seeds_app in ND. clear - ND. induction (user_seeds h) as [|a l IH]; cbn in *; [constructor|]. inversion ND; subst. constructor; auto. intros I. apply H1. apply in_or_app. now left.
Qed.
Definition C81_claim : Prop := forall h w, run start h = Some w -> NoDup (ids w).
Definition C81_no_fork_claim : Prop := forall h w, run start h = Some w -> no_fork h -> NoDup (ids w).
Definition C81_no_seed_claim : Prop := forall h w, run start h = Some w -> user_seeds h = [] -> NoDup (ids w).
(** The parent makes an id, forks, and both make one. *)
Theorem C81_fork_refuted : ~ C81_no_seed_claim.
Proof.
  intros C. destruct (run start [Start 1; NewId 1; Fork 1 2; NewId 1; NewId 2]) as [w|] eqn:R; [|discriminate]. specialize (C _ w R eq_refl). injection R as <-. vm_compute in C.
  inversion C as [|? ? _ C2]; subst. inversion C2 as [|? ? N _]; subst. apply N. now left.
Qed.
(** Two programs that start with random.seed(42). *)
Theorem C81_seed_refuted : ~ C81_no_fork_claim.
Proof.
  intros C. destruct (run start [Start 1; Start 2; Seed 1 42; Seed 2 42; NewId 1; NewId 2]) as [w|] eqn:R; [|discriminate]. specialize (C _ w R). injection R as <-.
  assert (F : no_fork [Start 1; Start 2; Seed 1 42; Seed 2 42; NewId 1; NewId 2]) by (intros p q I; cbn in I; repeat (destruct I as [I|I]; [discriminate|]); destruct I).
  specialize (C F). vm_compute in C. inversion C as [|? ? N _]; subst. apply N. now left.
Qed.
Theorem C81_refuted : ~ C81_claim.
Proof. intros C. apply C81_fork_refuted. intros h w R _. eapply C; eauto. Qed.

Module Demo.
(** A program that seeds random, starts a pool with a sub pool, and forks a helper before its first id. *)
Definition h : list event := [Start 1; Seed 1 42; Fork 1 2; NewId 1; Start 3; SubPool 3; NewId 3; Seed 3 7; NewId 3; NewId 2; NewId 1].
Example demo : exists w, run start h = Some w /\ List.length (ids w) = 5 /\ NoDup (user_seeds h).
Proof. eexists. split; [reflexivity|]. split; [reflexivity|]. repeat constructor; cbn; lia. Qed.
Example demo_forks : forked_before_ids h.
Proof. intros h1 p q h2 E. destruct h1 as [|a [|b [|c h1]]]; cbn in E; try discriminate; injection E; intros; subst; [split; cbn; intuition discriminate|]. exfalso. repeat (destruct h1 as [|? h1]; [discriminate|]; cbn in *; try discriminate; injection H as ? H; subst). Qed.
Example demo_id : option_map (fun w => nth 1 (ids w) []) (run start h) = Some (the_words (Uuid 3, 0) 0).
Proof. reflexivity. Qed.
End Demo.

Print Assumptions C81_one_process.
Print Assumptions C81_distinct_partial.
Print Assumptions C81_fork_refuted.
Print Assumptions C81_seed_refuted.
Print Assumptions C81_refuted.
