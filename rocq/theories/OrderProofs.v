(** * Invariants of the machine in OrderModel *)
From Coq Require Import List Arith Bool Lia.
From Verif Require Import OrderModel.
Import ListNotations.

Definition ed (x y : nat) : {x = y} + {x <> y}. Proof. decide equality. Qed.
Definition begins (rd : list item) : list nat := flat_map (fun i => match i with Begin m => [m] | _ => [] end) rd.
Definition wakes (rd : list item) : list nat := flat_map (fun i => match i with Wake m => [m] | _ => [] end) rd.
Definition locals (rd : list item) : list nat := flat_map (fun i => match i with Local t => [t] | _ => [] end) rd.
Notation cn m l := (count_occ ed l m).

Lemma begins_app a b : begins (a ++ b) = begins a ++ begins b. Proof. apply flat_map_app. Qed.
Lemma wakes_app a b : wakes (a ++ b) = wakes a ++ wakes b. Proof. apply flat_map_app. Qed.
Lemma locals_app a b : locals (a ++ b) = locals a ++ locals b. Proof. apply flat_map_app. Qed.
Lemma in_begins m rd : In m (begins rd) <-> In (Begin m) rd.
Proof.
  unfold begins. rewrite in_flat_map. split.
  - intros (i & I & J). destruct i; cbn in J; try contradiction; destruct J as [<-|[]]; exact I.
  - intros I. exists (Begin m). split; [exact I|now left].
Qed.
Lemma in_wakes m rd : In m (wakes rd) <-> In (Wake m) rd.
Proof.
  unfold wakes. rewrite in_flat_map. split.
  - intros (i & I & J). destruct i; cbn in J; try contradiction; destruct J as [<-|[]]; exact I.
  - intros I. exists (Wake m). split; [exact I|now left].
Qed.
Lemma in_locals m rd : In m (locals rd) <-> In (Local m) rd.
Proof.
  unfold locals. rewrite in_flat_map. split.
  - intros (i & I & J). destruct i; cbn in J; try contradiction; destruct J as [<-|[]]; exact I.
  - intros I. exists (Local m). split; [exact I|now left].
Qed.
Lemma mem_in m l : mem m l = true <-> In m l.
Proof. unfold mem. rewrite existsb_exists. split; [intros (x & I & E); apply Nat.eqb_eq in E; now subst|intros I; exists m; split; [exact I|apply Nat.eqb_refl]]. Qed.
Lemma mem_not m l : mem m l = false <-> ~ In m l.
Proof. rewrite <- mem_in. destruct (mem m l); intuition congruence. Qed.
Lemma cn_remove m x l : cn x (remove m l) = if ed x m then 0 else cn x l.
Proof.
  unfold remove. induction l as [|y l IH]; cbn; [now destruct (ed x m)|]. destruct (Nat.eqb_spec y m); cbn.
  - subst. rewrite IH. destruct (ed x m), (ed m x); congruence.
  - rewrite IH. destruct (ed x m), (ed y x); congruence.
Qed.
Lemma cn_in m l : In m l <-> cn m l >= 1. Proof. rewrite count_occ_In with (eq_dec := ed). lia. Qed.
Lemma cn_notin m l : ~ In m l <-> cn m l = 0. Proof. apply count_occ_not_In. Qed.
Lemma fst_remove m ws : map fst (remove_waiter m ws) = remove m (map fst ws).
Proof. unfold remove, remove_waiter. induction ws as [|[x f] ws IH]; cbn; [reflexivity|]. destruct (Nat.eqb x m); cbn; now rewrite IH. Qed.
Lemma fst_cancel m ws : map fst (cancel_fut m ws) = map fst ws.
Proof. induction ws as [|[x f] ws IH]; cbn; [reflexivity|]. destruct (Nat.eqb x m); cbn; now rewrite ?IH. Qed.
Lemma fst_wake ws ws' w : wake_first ws = (ws', w) -> map fst ws' = map fst ws.
Proof. destruct ws as [|[x []] ws]; cbn; intros E; injection E as <- <-; reflexivity. Qed.
Lemma wake_begins ws ws' w : wake_first ws = (ws', w) -> begins w = [].
Proof. destruct ws as [|[x []] ws]; cbn; intros E; injection E as <- <-; reflexivity. Qed.
Lemma wake_locals ws ws' w : wake_first ws = (ws', w) -> locals w = [].
Proof. destruct ws as [|[x []] ws]; cbn; intros E; injection E as <- <-; reflexivity. Qed.
Lemma remove_id m l : ~ In m l -> remove m l = l.
Proof.
  unfold remove. induction l as [|x l IH]; cbn; intros N; [reflexivity|]. destruct (Nat.eqb_spec x m); [subst; exfalso; apply N; now left|].
  cbn. rewrite IH; [reflexivity|]. intros I. apply N. now right.
Qed.
Lemma in_remove x m l : In x (remove m l) <-> In x l /\ x <> m.
Proof. unfold remove. rewrite filter_In. rewrite negb_true_iff, Nat.eqb_neq. tauto. Qed.
Lemma remove_waiter_in w m ws : In w (remove_waiter m ws) <-> In w ws /\ fst w <> m.
Proof. unfold remove_waiter. rewrite filter_In. rewrite negb_true_iff, Nat.eqb_neq. tauto. Qed.

Section inv.
  Variable src : nat -> nat.
  Variable chan : nat -> option nat.
  Variable lockfree : nat -> bool.
  Notation step := (step src chan lockfree).

  Definition linkof (x : nat) (lk : nat -> list nat) : list nat := match chan x with Some c => lk c | None => [] end.
  Definition places (x : nat) (s : st) : list nat :=
    started s ++ map fst (waiters s) ++ begins (ready s) ++ linkof x (links s) ++ outgoing s.

  (** ** Each request is in one place *)
  Record Count (s : st) : Prop := {
    c_link : forall c m, In m (links s c) -> chan (src m) = Some c;
    c_out : forall m, In m (outgoing s) -> chan (src m) <> None;
    c_made : NoDup (made s);
    c_one : forall m, cn m (places (src m) s) <= 1;
    c_in : forall m, In m (made s) -> ~ In m (gone s) -> cn m (places (src m) s) = 1;
    c_out0 : forall m, ~ In m (made s) -> cn m (places (src m) s) = 0;
    c_gone : forall m, In m (gone s) -> ~ In m (started s) /\ In m (made s) }.

  Lemma request_cases ws h m ws' h' sa : request lockfree ws h m = (ws', h', sa) ->
    (lockfree m = true /\ ws' = ws /\ h' = h /\ sa = [m]) \/
    (lockfree m = false /\ h = None /\ forallb is_cancelled ws = true /\ ws' = ws /\ h' = Some m /\ sa = [m]) \/
    (lockfree m = false /\ (h <> None \/ forallb is_cancelled ws = false) /\ ws' = ws ++ [(m, Pending)] /\ h' = h /\ sa = []).
  Proof.
    unfold request. destruct (lockfree m); [intros E; injection E as <- <- <-; auto|].
    destruct h as [x|]; [intros E; injection E as <- <- <-; right; right; repeat split; left; congruence|].
    destruct (forallb is_cancelled ws) eqn:F; intros E; injection E as <- <- <-; [right; left|right; right]; repeat split; auto.
  Qed.
  Lemma request_count ws h m ws' h' sa x : request lockfree ws h m = (ws', h', sa) ->
    cn x sa + cn x (map fst ws') = cn x (map fst ws) + (if ed m x then 1 else 0).
  Proof.
    intros E. apply request_cases in E as [(L & -> & -> & ->)|[(L & -> & F & -> & -> & ->)|(L & D & -> & -> & ->)]]; cbn.
    - destruct (ed m x); lia.
    - destruct (ed m x); lia.
    - rewrite map_app, count_occ_app. cbn. destruct (ed m x); lia.
  Qed.
  Lemma NoDup_snoc (l : list nat) m : NoDup l -> ~ In m l -> NoDup (l ++ [m]).
  Proof. intros N I. apply NoDup_rev in N. rewrite <- (rev_involutive (l ++ [m])). apply NoDup_rev. rewrite rev_app_distr. cbn. constructor; [rewrite <- in_rev; exact I|exact N]. Qed.
  Lemma linkof_in x c lk : chan x = Some c -> linkof x lk = lk c. Proof. intros E. unfold linkof. now rewrite E. Qed.
  Lemma linkof_upd x c lk v : linkof x (upd lk c v) = match chan x with Some c' => if Nat.eqb c' c then v else lk c' | None => [] end.
  Proof. reflexivity. Qed.

  Ltac places_tac := unfold places; cbn [started waiters ready links outgoing];
    rewrite ?begins_app, ?map_app, ?count_occ_app, ?linkof_upd, ?fst_remove, ?fst_cancel, ?cn_remove; cbn [begins flat_map map fst app count_occ];
    repeat match goal with |- context [flat_map ?f ?l] => change (flat_map f l) with (begins l) end.

  Lemma count_step s e s' : Count s -> step s e s' -> Count s'.
  Proof.
    intros C S. destruct C as [CL CO CM C1 CI C0 CG]. destruct S; cbn [links outgoing made gone started] in *.
    - (* make_remote *)
      assert (Z : cn m (places (src m) (mk rd lk ou ws h gn ac ca lo ma sa fi)) = 0) by now apply C0.
      split; cbn [links outgoing made gone started]; auto.
      + intros y I. apply in_app_or in I as [I|[<-|[]]]; [now apply CO|congruence].
      + now apply NoDup_snoc.
      + intros y. specialize (C1 y). revert C1 Z. places_tac. destruct (ed m y); [subst|]; lia.
      + intros y I G. specialize (C1 y). destruct (ed m y) as [<-|D].
        * revert Z. places_tac. destruct (ed m m); lia.
        * assert (In y ma) by (apply in_app_or in I as [I|[<-|[]]]; congruence). specialize (CI y H2 G). revert CI. places_tac. destruct (ed m y); lia.
      + intros y I. assert (~ In y ma /\ y <> m) as (I1 & I2) by (split; intros ?; apply I; apply in_or_app; subst; [left; auto|right; now left]).
        specialize (C0 y I1). revert C0. places_tac. destruct (ed m y); [congruence|lia].
      + intros y G. destruct (CG y G). split; auto. apply in_or_app. now left.
    - (* write *)
      assert (K : forall y, cn y (places (src y) (mk rd (upd lk c (lk c ++ [m])) (remove m ou) ws h gn ac ca lo ma sa fi)) =
                            cn y (places (src y) (mk rd lk ou ws h gn ac ca lo ma sa fi))).
      { intros y. specialize (C1 y). revert C1. places_tac. destruct (ed y m) as [->|D].
        - rewrite H, Nat.eqb_refl. rewrite (linkof_in _ _ _ H). rewrite count_occ_app. cbn. apply cn_in in H0. destruct (ed m m); lia.
        - unfold linkof. destruct (chan (src y)); [|lia]. destruct (Nat.eqb_spec n c); [subst|lia]. rewrite count_occ_app. cbn. destruct (ed m y); [congruence|lia]. }
      split; cbn [links outgoing made gone started]; auto.
      + intros c' y. unfold upd. destruct (Nat.eqb_spec c' c); [subst|apply CL]. intros I. apply in_app_or in I as [I|[<-|[]]]; auto.
      + intros y I. apply in_remove in I as (I & _). now apply CO.
      + intros y. rewrite K. apply C1.
      + intros y I G. rewrite K. now apply CI.
      + intros y I. rewrite K. now apply C0.
    - (* send_fails *)
      assert (K : forall y, y <> m -> cn y (places (src y) (mk rd lk (remove m ou) ws h (m :: gn) ac ca lo ma sa fi)) =
                            cn y (places (src y) (mk rd lk ou ws h gn ac ca lo ma sa fi))) by (intros y D; places_tac; destruct (ed y m); [congruence|lia]).
      assert (Z : cn m sa = 0 /\ In m ma).
      { split; [specialize (C1 m); revert C1; places_tac; apply cn_in in H; lia|]. destruct (in_dec ed m ma) as [I|I]; [exact I|]. specialize (C0 m I). revert C0. places_tac. apply cn_in in H. lia. }
      destruct Z as (Z & Zm). split; cbn [links outgoing made gone started]; auto.
      + intros y I. apply in_remove in I as (I & _). now apply CO.
      + intros y. specialize (C1 y). revert C1. places_tac. destruct (ed y m); lia.
      + intros y I G. rewrite K; [apply CI; auto; intros ?; apply G; now right|]. intros ->. apply G. now left.
      + intros y I. rewrite K; [now apply C0|]. intros ->. auto.
      + intros y [<-|G]; [split; [now apply cn_notin|exact Zm]|now apply CG].
    - (* connection_lost *)
      assert (K : forall y, cn y (places (src y) (mk rd (upd lk c []) ou ws h (lk c ++ gn) ac ca lo ma sa fi)) <= cn y (places (src y) (mk rd lk ou ws h gn ac ca lo ma sa fi))).
      { intros y. places_tac. unfold linkof. destruct (chan (src y)); [|lia]. destruct (Nat.eqb_spec n c); [subst|]; cbn; lia. }
      split; cbn [links outgoing made gone started]; auto.
      + intros c' y. unfold upd. destruct (Nat.eqb c' c); [easy|apply CL].
      + intros y. specialize (K y). specialize (C1 y). lia.
      + intros y I G. specialize (CI y I). rewrite <- CI by (intros ?; apply G; apply in_or_app; now right). places_tac.
        unfold linkof. destruct (chan (src y)); [|lia]. destruct (Nat.eqb_spec n c); [subst|reflexivity].
        assert (~ In y (lk c)) by (intros ?; apply G; apply in_or_app; now left). apply cn_notin in H. cbn. lia.
      + intros y I. specialize (K y). specialize (C0 y I). lia.
      + intros y G. apply in_app_or in G as [G|G]; [|now apply CG]. specialize (C1 y). revert C1. places_tac. rewrite (linkof_in _ c lk) by now apply CL.
        intros C1. apply cn_in in G. split; [apply cn_notin; lia|]. destruct (in_dec ed y ma) as [I|I]; [exact I|]. specialize (C0 y I). revert C0. places_tac.
        rewrite (linkof_in _ c lk) by (apply CL; apply cn_in; lia). lia.
    - split; cbn [links outgoing made gone started]; auto; [intros y; specialize (C1 y)|intros y I G; specialize (CI y I G)|intros y I; specialize (C0 y I)]; [revert C1|revert CI|revert C0]; places_tac; cbn; lia.
    - split; cbn [links outgoing made gone started]; auto.
    - (* reader_takes *)
      assert (Hc : chan (src m) = Some c) by (apply CL; rewrite H; now left).
      assert (K : forall y, cn y (places (src y) (mk (rd ++ [Begin m; Reader c]) (upd lk c q) ou ws h gn ac ca lo ma sa fi)) =
                            cn y (places (src y) (mk (Reader c :: rd) lk ou ws h gn ac ca lo ma sa fi))).
      { intros y. places_tac. unfold linkof.
        destruct (ed y m) as [->|D].
        - rewrite Hc, Nat.eqb_refl, H. cbn. destruct (ed m m); lia.
        - destruct (ed m y); [congruence|]. destruct (chan (src y)); [|lia]. destruct (Nat.eqb_spec n0 c); [subst|lia]. rewrite H. cbn. destruct (ed m y); [congruence|lia]. }
      split; cbn [links outgoing made gone started]; auto.
      + intros c' y. unfold upd. destruct (Nat.eqb_spec c' c); [subst|apply CL]. intros I. apply CL. rewrite H. now right.
      + intros y. rewrite K. apply C1.
      + intros y I G. rewrite K. now apply CI.
      + intros y I. rewrite K. now apply C0.
    - (* begin *)
      assert (K : forall y, cn y (places (src y) (mk rd lk ou ws' h' gn ac ca lo ma (sa ++ sa') fi)) =
                            cn y (places (src y) (mk (Begin m :: rd) lk ou ws h gn ac ca lo ma sa fi))).
      { intros y. pose proof (request_count _ _ _ _ _ _ y H0) as R. places_tac. destruct (ed m y); lia. }
      split; cbn [links outgoing made gone started]; auto.
      + intros y. rewrite K. apply C1.
      + intros y I G. rewrite K. now apply CI.
      + intros y I. rewrite K. now apply C0.
      + intros y G. destruct (CG y G) as (G1 & G2). split; [|exact G2]. intros I. apply in_app_or in I as [I|I]; [auto|].
        assert (y = m); [|congruence]. apply request_cases in H0 as [(_ & _ & _ & ->)|[(_ & _ & _ & _ & _ & ->)|(_ & _ & _ & _ & ->)]]; cbn in I; intuition.
    - (* begin_cancelled *)
      assert (K : forall y, cn y (places (src y) (mk rd lk ou ws h gn ac ca lo ma sa fi)) + (if ed m y then 1 else 0) =
                            cn y (places (src y) (mk (Begin m :: rd) lk ou ws h gn ac ca lo ma sa fi))) by (intros y; places_tac; destruct (ed m y); lia).
      split; cbn [links outgoing made gone started]; auto.
      + intros y. specialize (K y). specialize (C1 y). lia.
      + intros y I G. specialize (K y). specialize (CI y I G). destruct (ed m y); [congruence|lia].
      + intros y I. specialize (K y). specialize (C0 y I). lia.
    - (* wake *)
      assert (M : cn m (map fst ws) >= 1) by (apply cn_in; apply in_map_iff; exists (m, SetResult); auto).
      assert (K : forall y, cn y (places (src y) (mk rd lk ou (remove_waiter m ws) (Some m) gn ac ca lo ma (sa ++ [m]) fi)) =
                            cn y (places (src y) (mk (Wake m :: rd) lk ou ws h gn ac ca lo ma sa fi))).
      { intros y. specialize (C1 y). revert C1. places_tac. destruct (ed m y), (ed y m); subst; try congruence; lia. }
      split; cbn [links outgoing made gone started]; auto.
      + intros y. rewrite K. apply C1.
      + intros y I G. rewrite K. now apply CI.
      + intros y I. rewrite K. now apply C0.
      + intros y G. destruct (CG y G) as (G1 & G2). split; [|exact G2]. intros I. apply in_app_or in I as [I|[<-|[]]]; auto.
    - (* wake_cancelled *)
      assert (B : begins w = [] /\ map fst ws' = remove m (map fst ws)).
      { destruct h; [injection H1 as <- <-; now rewrite fst_remove|]. split; [eapply wake_begins; eauto|]. rewrite (fst_wake _ _ _ H1). apply fst_remove. }
      destruct B as (B1 & B2).
      assert (K : forall y, cn y (places (src y) (mk (rd ++ w) lk ou ws' h gn ac' ca' lo ma sa fi)) + (if ed m y then cn y (map fst ws) else 0) =
                            cn y (places (src y) (mk (Wake m :: rd) lk ou ws h gn ac ca lo ma sa fi))).
      { intros y. places_tac. rewrite B1, B2, cn_remove. cbn. destruct (ed m y), (ed y m); subst; try congruence; lia. }
      split; cbn [links outgoing made gone started]; auto.
      + intros y. specialize (K y). specialize (C1 y). lia.
      + intros y I G. specialize (K y). specialize (CI y I G). destruct (ed m y); [congruence|lia].
      + intros y I. specialize (K y). specialize (C0 y I). lia.
    - (* finish *)
      assert (K : forall y, cn y (places (src y) (mk (rd ++ w) lk ou ws' None gn ac' ca' lo ma sa (fi ++ [m]))) =
                            cn y (places (src y) (mk rd lk ou ws (Some m) gn ac ca lo ma sa fi)))
        by (intros y; places_tac; rewrite (wake_begins _ _ _ H), (fst_wake _ _ _ H); cbn; lia).
      split; cbn [links outgoing made gone started]; auto.
      + intros y. rewrite K. apply C1.
      + intros y I G. rewrite K. now apply CI.
      + intros y I. rewrite K. now apply C0.
    - split; cbn [links outgoing made gone started]; auto.
    - (* cancel_begin *)
      assert (Z : cn m (begins rd) >= 1) by (apply cn_in; now apply in_begins).
      split; cbn [links outgoing made gone started]; auto.
      + intros y I G. apply (CI y I). intros ?. apply G. now right.
      + intros y [<-|G]; [|auto]. specialize (C1 m). revert C1. places_tac. intros C1. split; [apply cn_notin; lia|].
        destruct (in_dec ed m ma) as [I|I]; [exact I|]. specialize (C0 m I). revert C0. places_tac. lia.
    - (* cancel_pending *)
      assert (Z : cn m (map fst ws) >= 1) by (apply cn_in; apply in_map_iff; exists (m, Pending); auto).
      assert (K : forall y, cn y (places (src y) (mk (rd ++ [Wake m]) lk ou (cancel_fut m ws) h (m :: gn) ac ca lo ma sa fi)) =
                            cn y (places (src y) (mk rd lk ou ws h gn ac ca lo ma sa fi))) by (intros y; places_tac; cbn; lia).
      split; cbn [links outgoing made gone started]; auto.
      + intros y. rewrite K. apply C1.
      + intros y I G. rewrite K. apply (CI y I). intros ?. apply G. now right.
      + intros y I. rewrite K. now apply C0.
      + intros y [<-|G]; [|auto]. specialize (C1 m). revert C1. places_tac. intros C1. split; [apply cn_notin; lia|].
        destruct (in_dec ed m ma) as [I|I]; [exact I|]. specialize (C0 m I). revert C0. places_tac. lia.
    - (* cancel_woken *)
      assert (Z : cn m (map fst ws) >= 1) by (apply cn_in; apply in_map_iff; exists (m, SetResult); auto).
      split; cbn [links outgoing made gone started]; auto.
      + intros y I G. apply (CI y I). intros ?. apply G. now right.
      + intros y [<-|G]; [|auto]. specialize (C1 m). revert C1. places_tac. intros C1. split; [apply cn_notin; lia|].
        destruct (in_dec ed m ma) as [I|I]; [exact I|]. specialize (C0 m I). revert C0. places_tac. lia.
    - (* tell *)
      assert (Z : cn m (places (src m) (mk rd lk ou ws h gn (a1 ++ src m :: a2) ca lo ma sa fi)) = 0) by (subst ac; now apply C0).
      split; cbn [links outgoing made gone started]; auto.
      + now apply NoDup_snoc.
      + intros y. specialize (C1 y). revert C1 Z. places_tac. destruct (ed m y); [subst|]; cbn; lia.
      + intros y I G. destruct (ed m y) as [<-|D].
        * revert Z. places_tac. destruct (ed m m); [|congruence]. cbn. lia.
        * assert (In y ma) by (apply in_app_or in I as [I|[<-|[]]]; congruence). specialize (CI y H2 G). revert CI. places_tac. destruct (ed m y); [congruence|cbn; lia].
      + intros y I. assert (~ In y ma /\ y <> m) as (I1 & I2) by (split; intros ?; apply I; apply in_or_app; subst; [left; auto|right; now left]).
        specialize (C0 y I1). revert C0. places_tac. destruct (ed m y); [congruence|cbn; lia].
      + intros y G. destruct (CG y G). split; auto. apply in_or_app. now left.
    - (* tell_only *)
      assert (Z : cn m (places (src m) (mk rd lk ou ws h gn ac ca lo ma sa fi)) = 0) by now apply C0.
      split; cbn [links outgoing made gone started]; auto.
      + now apply NoDup_snoc.
      + intros y. specialize (C1 y). revert C1 Z. places_tac. destruct (ed m y); [subst|]; cbn; lia.
      + intros y I G. destruct (ed m y) as [<-|D].
        * revert Z. places_tac. destruct (ed m m); [|congruence]. cbn. lia.
        * assert (In y ma) by (apply in_app_or in I as [I|[<-|[]]]; congruence). specialize (CI y H2 G). revert CI. places_tac. destruct (ed m y); [congruence|cbn; lia].
      + intros y I. assert (~ In y ma /\ y <> m) as (I1 & I2) by (split; intros ?; apply I; apply in_or_app; subst; [left; auto|right; now left]).
        specialize (C0 y I1). revert C0. places_tac. destruct (ed m y); [congruence|cbn; lia].
      + intros y G. destruct (CG y G). split; auto. apply in_or_app. now left.
    - (* call *)
      assert (Z : cn m (places (src m) (mk rd lk ou ws h gn ac ca lo ma sa fi)) = 0) by now apply C0.
      assert (R : forall y, cn y sa' + cn y (map fst ws') = cn y (map fst ws) + (if ed m y then 1 else 0)) by (intros y; eapply request_count; eauto).
      split; cbn [links outgoing made gone started]; auto.
      + now apply NoDup_snoc.
      + intros y. specialize (C1 y). specialize (R y). revert C1 Z R. places_tac. destruct (ed m y); [subst|]; cbn; lia.
      + intros y I G. specialize (R y). destruct (ed m y) as [<-|D].
        * revert Z. places_tac. lia.
        * assert (In y ma) by (apply in_app_or in I as [I|[<-|[]]]; congruence). specialize (CI y H3 G). revert CI. places_tac. lia.
      + intros y I. assert (~ In y ma /\ y <> m) as (I1 & I2) by (split; intros ?; apply I; apply in_or_app; subst; [left; auto|right; now left]).
        specialize (C0 y I1). specialize (R y). revert C0. places_tac. destruct (ed m y); [congruence|lia].
      + intros y G. destruct (CG y G) as (G1 & G2). split; [|apply in_or_app; now left]. intros I. apply in_app_or in I as [I|I]; [auto|].
        assert (y = m); [|congruence]. apply request_cases in H2 as [(_ & _ & _ & ->)|[(_ & _ & _ & _ & _ & ->)|(_ & _ & _ & _ & ->)]]; cbn in I; intuition.
    - split; cbn [links outgoing made gone started]; auto.
  Qed.

  (** ** Local tasks *)
  Definition tokens (x : nat) (s : st) : nat := cn x (active s) + cn x (locals (ready s)) + cn x (map src (calls s)).
  Definition Token (s : st) : Prop := forall x, tokens x s <= 1.
  (** The Begin of an awaited tell is followed by its task. *)
  Definition Follow (s : st) : Prop := forall p m q, ready s = p ++ Begin m :: q -> chan (src m) = None -> ~ In (src m) (loose s) -> In (Local (src m)) q.

  Lemma cn_src_remove m ca x : cn x (map src (remove m ca)) <= cn x (map src ca).
  Proof. unfold remove. induction ca as [|y ca IH]; cbn; [lia|]. destruct (Nat.eqb y m); cbn; destruct (ed (src y) x); lia. Qed.
  Lemma cn_src_remove' m ca : In m ca -> cn (src m) (map src (remove m ca)) + 1 <= cn (src m) (map src ca).
  Proof.
    unfold remove. induction ca as [|y ca IH]; [easy|]. intros I. cbn. destruct (Nat.eqb_spec y m) as [->|D]; cbn.
    - pose proof (cn_src_remove m ca (src m)) as R. unfold remove in R. destruct (ed (src m) (src m)); [lia|congruence].
    - destruct I as [->|I]; [congruence|]. specialize (IH I). destruct (ed (src y) (src m)); lia.
  Qed.
  Lemma resume_count m ac ca ac' ca' x : resume src m ac ca = (ac', ca') -> cn x ac' + cn x (map src ca') <= cn x ac + cn x (map src ca).
  Proof.
    unfold resume. destruct (mem m ca) eqn:M; intros E; injection E as <- <-; [|lia]. apply mem_in in M. cbn.
    destruct (ed (src m) x) as [<-|D]; [pose proof (cn_src_remove' m ca M); lia|pose proof (cn_src_remove m ca x); lia].
  Qed.
  Lemma token_step s e s' : Token s -> step s e s' -> Token s'.
  Proof.
    intros T S x. specialize (T x). unfold tokens in *. destruct S; cbn [active ready calls] in *;
      rewrite ?locals_app, ?map_app, ?count_occ_app in *; cbn [locals flat_map app map count_occ] in *;
      repeat match goal with |- context [flat_map ?f ?l] => change (flat_map f l) with (locals l) end;
      repeat match goal with H : context [flat_map ?f ?l] |- _ => change (flat_map f l) with (locals l) in H end; try lia.
    - pose proof (resume_count _ _ _ _ _ x H0). assert (locals w = []) as -> by (destruct h; [now injection H1 as <- <-|eapply wake_locals; eauto]). cbn. lia.
    - pose proof (resume_count _ _ _ _ _ x H0). rewrite (wake_locals _ _ _ H). cbn. lia.
    - pose proof (resume_count _ _ _ _ _ x H2). lia.
    - subst ac. rewrite count_occ_app in T. cbn [count_occ] in T. destruct (ed (src m) x); lia.
    - subst ac. rewrite count_occ_app in T. cbn [count_occ] in T. destruct (ed (src m) x); lia.
    - destruct (ed t x); lia.
  Qed.

  Lemma split_app {A} (l1 l2 p q : list A) a : l1 ++ l2 = p ++ a :: q ->
    (exists q', l1 = p ++ a :: q' /\ q = q' ++ l2) \/ (exists p', p = l1 ++ p' /\ l2 = p' ++ a :: q).
  Proof.
    revert p. induction l1 as [|x l1 IH]; intros p E; cbn in *.
    - right. exists p. auto.
    - destruct p as [|y p]; cbn in E; injection E as -> E.
      + left. exists l1. auto.
      + destruct (IH p E) as [(q' & -> & ->)|(p' & -> & ->)]; [left; exists q'; auto|right; exists p'; auto].
  Qed.
  Lemma follow_snoc rd l lo : (forall p m q, rd = p ++ Begin m :: q -> chan (src m) = None -> ~ In (src m) lo -> In (Local (src m)) q) ->
    (forall p m q, l = p ++ Begin m :: q -> chan (src m) = None -> ~ In (src m) lo -> In (Local (src m)) q) ->
    forall p m q, rd ++ l = p ++ Begin m :: q -> chan (src m) = None -> ~ In (src m) lo -> In (Local (src m)) q.
  Proof.
    intros F1 F2 p m q E N L. apply split_app in E as [(q' & E & ->)|(p' & -> & E)].
    - apply in_or_app. left. eapply F1; eauto.
    - eapply F2; eauto.
  Qed.
  Lemma no_begin l lo : begins l = [] ->
    forall p m q, l = p ++ Begin m :: q -> chan (src m) = None -> ~ In (src m) lo -> In (Local (src m)) q.
  Proof. intros B p m q ->. rewrite begins_app in B. cbn in B. destruct (begins p); discriminate. Qed.
  Lemma follow_step s e s' : Count s -> Follow s -> step s e s' -> Follow s'.
  Proof.
    intros C F S. unfold Follow in *. destruct S; cbn [ready loose links] in *; auto;
      try (intros p m0 q0 E; eapply (F (_ :: p)); rewrite E; reflexivity).
    - apply follow_snoc; [exact F|]. now apply no_begin.
    - apply follow_snoc; [intros p m0 q0 E; eapply (F (_ :: p)); rewrite E; reflexivity|]. intros [|? p] m0 q0 E N L.
      + injection E as <- <-. pose proof (c_link _ C c m) as K. cbn in K. rewrite H in K. specialize (K (or_introl eq_refl)). congruence.
      + destruct p as [|? p]; [discriminate|]. destruct p; discriminate.
    - apply follow_snoc; [intros p m0 q0 E; eapply (F (_ :: p)); rewrite E; reflexivity|].
      assert (B : begins w = []) by (destruct h; [now injection H1 as <- <-|eapply wake_begins; eauto]).
      now apply no_begin.
    - apply follow_snoc; [exact F|].
      apply no_begin. exact (wake_begins _ _ _ H).
    - apply follow_snoc; [exact F|].
      now apply no_begin.
    - apply follow_snoc; [exact F|]. intros [|? p] m0 q0 E N L.
      + injection E as <- <-. now left.
      + destruct p as [|? p]; [discriminate|]. destruct p; discriminate.
    - intros p m0 q0 E N L. apply split_app in E as [(q' & -> & ->)|(p' & -> & E)].
      + apply in_or_app. left. eapply F; eauto. intros ?. apply L. now right.
      + destruct p' as [|? p']; [injection E as <- <-; exfalso; apply L; now left|destruct p'; discriminate].
  Qed.
  (** A task that runs has no Begin in the queue. *)
  Lemma active_no_begin s x : Token s -> Follow s -> In x (active s) -> chan x = None -> ~ In x (loose s) -> forall m, In m (begins (ready s)) -> src m <> x.
  Proof.
    intros T F A N L m I <-. apply in_begins in I. apply in_split in I as (p & q & E). specialize (F p m q E N L).
    specialize (T (src m)). unfold tokens in T. apply cn_in in A. assert (cn (src m) (locals (ready s)) >= 1); [|lia].
    apply cn_in. apply in_locals. rewrite E. apply in_or_app. right. now right.
  Qed.

  (** ** The lock *)
  Record Lock (s : st) : Prop := {
    l_cancelled : forall m, In (m, FutCancelled) (waiters s) -> In m (gone s);
    l_head : forall w ws m, waiters s = w :: ws -> ~ In (m, SetResult) ws;
    l_set : forall m, In (m, SetResult) (waiters s) -> holder s = None;
    l_first : forall m ws, waiters s = (m, Pending) :: ws -> holder s <> None;
    l_wake : forall m f, In (m, f) (waiters s) -> f <> Pending -> In m (wakes (ready s));
    l_wake1 : forall m, cn m (wakes (ready s)) <= 1;
    l_wake0 : forall m, In (m, Pending) (waiters s) -> ~ In m (wakes (ready s));
    l_why : forall m, In m (wakes (ready s)) -> In m (gone s) \/ In (m, SetResult) (waiters s);
    l_free : forall m f, In (m, f) (waiters s) -> lockfree m = false;
    l_holder : forall m, holder s = Some m -> lockfree m = false }.

  Lemma in_cancel_fut w m ws : In w (cancel_fut m ws) -> In w ws \/ w = (m, FutCancelled).
  Proof.
    induction ws as [|[y f] ws IH]; cbn; [easy|]. destruct (Nat.eqb_spec y m) as [->|D].
    - intros [<-|I]; [destruct f; cbn; auto|auto].
    - intros [<-|I]; [auto|]. destruct (IH I); auto.
  Qed.
  Lemma in_cancel_fut_set x m ws : In (x, SetResult) (cancel_fut m ws) <-> In (x, SetResult) ws.
  Proof.
    induction ws as [|[y f] ws IH]; cbn; [easy|]. destruct (Nat.eqb_spec y m) as [->|D]; cbn.
    - split; intros [E|I]; auto; left; [destruct f; congruence|injection E as -> ->; reflexivity].
    - rewrite IH. tauto.
  Qed.
  Lemma cancel_fut_head m ws w ws' : cancel_fut m ws = w :: ws' -> exists v vs, ws = v :: vs /\ fst v = fst w /\ (snd w = Pending -> v = w) /\
     forall x, In (x, SetResult) ws' -> In (x, SetResult) vs.
  Proof.
    destruct ws as [|[y f] ws]; cbn; [discriminate|]. destruct (Nat.eqb_spec y m) as [->|D]; intros E; injection E as <- <-.
    - exists (m, f), ws. cbn. repeat split; auto. destruct f; congruence.
    - exists (y, f), ws. cbn. repeat split; auto. intros x. apply in_cancel_fut_set.
  Qed.
  Lemma wake_first_cases ws ws' w : wake_first ws = (ws', w) ->
    (exists m q, ws = (m, Pending) :: q /\ ws' = (m, SetResult) :: q /\ w = [Wake m]) \/
    (ws' = ws /\ w = [] /\ forall m q, ws <> (m, Pending) :: q).
  Proof.
    destruct ws as [|[x []] ws]; cbn; intros E; injection E as <- <-; [right|left|right|right]; try (split; [|split]; congruence). eauto.
  Qed.

  Lemma waiter_made s m f : Count s -> In (m, f) (waiters s) -> In m (made s) /\ ~ In m (started s) /\ ~ In m (begins (ready s)).
  Proof.
    intros C I. pose proof (c_one _ C m) as C1. pose proof (c_out0 _ C m) as C0. unfold places in *. rewrite !count_occ_app in *.
    assert (cn m (map fst (waiters s)) >= 1) by (apply cn_in; apply in_map_iff; now exists (m, f)).
    split; [destruct (in_dec ed m (made s)); auto; exfalso; specialize (C0 n); lia|]. split; apply cn_notin; lia.
  Qed.
  Lemma waiter_unique s m f g : Count s -> In (m, f) (waiters s) -> In (m, g) (waiters s) -> f = g.
  Proof.
    intros C I J. pose proof (c_one _ C m) as C1. unfold places in C1. rewrite !count_occ_app in C1.
    assert (K : cn m (map fst (waiters s)) <= 1) by lia. clear C1. induction (waiters s) as [|[x h] ws IH]; [easy|]. cbn in K.
    destruct (ed x m) as [->|D].
    - assert (Z : forall k, ~ In (m, k) ws) by (intros k Y; assert (cn m (map fst ws) >= 1) by (apply cn_in; apply in_map_iff; now exists (m, k)); lia).
      destruct I as [I|I]; [|now apply Z in I]. destruct J as [J|J]; [|now apply Z in J]. congruence.
    - destruct I as [I|I]; [congruence|]. destruct J as [J|J]; [congruence|]. apply IH; auto.
  Qed.
  Lemma pend_notset s m ws : Count s -> waiters s = (m, Pending) :: ws -> forall f, ~ In (m, f) ws.
  Proof.
    intros C E f I. pose proof (c_one _ C m) as C1. unfold places in C1. rewrite !count_occ_app, E in C1. cbn in C1.
    destruct (ed m m); [|congruence]. assert (cn m (map fst ws) >= 1) by (apply cn_in; apply in_map_iff; now exists (m, f)). lia.
  Qed.
  Lemma Lock_ready s rd' : Lock s -> wakes rd' = wakes (ready s) -> forall lk ou ac ca lo ma sa fi,
    Lock (mk rd' lk ou (waiters s) (holder s) (gone s) ac ca lo ma sa fi).
  Proof. intros [] W lk ou ac ca lo ma sa fi. split; cbn [waiters holder gone ready]; rewrite ?W; auto. Qed.
  Lemma Lock_gone s gn' : Lock s -> (forall m, In m (gone s) -> In m gn') -> forall lk ou ac ca lo ma sa fi,
    Lock (mk (ready s) lk ou (waiters s) (holder s) gn' ac ca lo ma sa fi).
  Proof. intros [] W lk ou ac ca lo ma sa fi. split; cbn [waiters holder gone ready]; auto. intros m I. destruct (l_why0 m I); auto. Qed.
  (** Releasing: the first waiter is woken. *)
  Lemma Lock_release s ws' w : Lock s -> Count s -> (forall m, ~ In (m, SetResult) (waiters s)) -> wake_first (waiters s) = (ws', w) ->
    forall lk ou ac ca lo ma sa fi, Lock (mk (ready s ++ w) lk ou ws' None (gone s) ac ca lo ma sa fi).
  Proof.
    intros L C NS W lk ou ac ca lo ma sa fi. destruct L as [LC LH LS LF LW LW1 LW0 LY LR LO]. apply wake_first_cases in W as [(m & q & E & -> & ->)|(-> & -> & NP)].
    - pose proof (pend_notset _ _ _ C E) as U. rewrite E in *.
      split; cbn [waiters holder gone ready]; rewrite ?wakes_app; cbn [wakes flat_map app].
      + intros x [Y|Y]; [discriminate|apply LC; now right].
      + intros v vs x Y. injection Y as <- <-. intros Z. apply (NS x). now right.
      + auto.
      + intros x vs Y. discriminate.
      + intros x f [Y|Y] N; apply in_or_app; [injection Y as <- <-; right; now left|left; apply (LW x f); [now right|exact N]].
      + intros x. rewrite count_occ_app. cbn. destruct (ed m x) as [<-|D]; [|specialize (LW1 x); lia].
        specialize (LW0 m (or_introl eq_refl)). apply cn_notin in LW0. lia.
      + intros x [Y|Y] I; [discriminate|]. apply in_app_or in I as [I|[<-|[]]]; [apply (LW0 x); [now right|exact I]|]. now apply U in Y.
      + intros x I. apply in_app_or in I as [I|[<-|[]]]; [|right; now left]. destruct (LY x I) as [G|[Y|Y]]; [auto|discriminate|right; now right].
      + intros x f [Y|Y]; [injection Y as <- <-; apply (LR m Pending); now left|apply (LR x f); now right].
      + discriminate.
    - rewrite app_nil_r. split; cbn [waiters holder gone ready]; auto; try discriminate. intros y q Y. now apply NP in Y.
  Qed.

  Lemma remove_waiter_head m f ws : ~ In m (map fst ws) -> remove_waiter m ((m, f) :: ws) = ws.
  Proof.
    intros N. unfold remove_waiter. cbn. rewrite Nat.eqb_refl. cbn. induction ws as [|[x g] ws IH]; [reflexivity|]. cbn in *.
    destruct (Nat.eqb_spec x m); [exfalso; apply N; now left|]. cbn. rewrite IH; [reflexivity|]. intros ?. apply N. now right.
  Qed.
  Lemma set_head s m : Count s -> Lock s -> In (m, SetResult) (waiters s) -> exists ws, waiters s = (m, SetResult) :: ws /\ ~ In m (map fst ws).
  Proof.
    intros C L I. pose proof (c_one _ C m) as C1. unfold places in C1. rewrite !count_occ_app in C1. pose proof (l_head _ L) as H.
    destruct (waiters s) as [|w ws]; [easy|]. specialize (H w ws m eq_refl). destruct I as [->|I]; [|contradiction]. exists ws. split; [reflexivity|].
    cbn in C1. destruct (ed m m); [|congruence]. apply cn_notin. lia.
  Qed.
  Lemma Lock_request s ws' h' sa' m : Count s -> Lock s -> ~ In m (map fst (waiters s)) -> ~ In m (gone s) -> request lockfree (waiters s) (holder s) m = (ws', h', sa') ->
    forall lk ou ac ca lo ma sa fi, Lock (mk (ready s) lk ou ws' h' (gone s) ac ca lo ma sa fi).
  Proof.
    intros C [LC LH LS LF LW LW1 LW0 LY LR LO] N G R lk ou ac ca lo ma sa fi.
    apply request_cases in R as [(R & -> & -> & ->)|[(R & HN & F & -> & -> & ->)|(R & D & -> & -> & ->)]].
    - split; auto.
    - assert (NS : forall x f, In (x, f) (waiters s) -> f = FutCancelled) by (intros x f I; rewrite forallb_forall in F; specialize (F _ I); now destruct f).
      split; cbn [waiters holder gone ready]; auto.
      + intros x I. specialize (NS _ _ I). discriminate.
      + congruence.
      + intros x E. injection E as <-. exact R.
    - split; cbn [waiters holder gone ready]; auto.
      + intros x I. apply in_app_or in I as [I|[I|[]]]; [auto|discriminate].
      + intros w ws x E I. destruct (waiters s) as [|v vs] eqn:W; [injection E as <- <-; easy|]. injection E as -> E. subst ws.
        apply in_app_or in I as [I|[I|[]]]; [|discriminate]. now apply (LH w vs x eq_refl).
      + intros x I. apply in_app_or in I as [I|[I|[]]]; [now apply (LS x)|discriminate].
      + intros x ws E. destruct (waiters s) as [|v vs] eqn:W.
        * destruct D as [D|D]; [exact D|discriminate].
        * injection E as -> _. now apply (LF x vs).
      + intros x f I NP. apply in_app_or in I as [I|[I|[]]]; [now apply (LW x f)|congruence].
      + intros x I J. apply in_app_or in I as [I|[I|[]]]; [now apply (LW0 x)|]. injection I as ->. destruct (LY x J) as [K|K]; [auto|].
        apply N. apply in_map_iff. now exists (x, SetResult).
      + intros x I. destruct (LY x I); [auto|]. right. apply in_or_app. auto.
      + intros x f I. apply in_app_or in I as [I|[I|[]]]; [now apply (LR x f)|congruence].
  Qed.
  Lemma Lock_remove s m rd : Count s -> Lock s -> ready s = Wake m :: rd -> forall lk ou ac ca lo ma sa fi,
    let s' := mk rd lk ou (remove_waiter m (waiters s)) (holder s) (gone s) ac ca lo ma sa fi in
    (holder s <> None -> Lock s') /\ (forall ws' w, holder s = None -> wake_first (remove_waiter m (waiters s)) = (ws', w) ->
        Lock (mk (rd ++ w) lk ou ws' None (gone s) ac ca lo ma sa fi)).
  Proof.
    intros C [LC LH LS LF LW LW1 LW0 LY LR LO] E lk ou ac ca lo ma sa fi s'. subst s'. rewrite E in *.
    assert (NW : ~ In m (wakes rd)) by (intros I; specialize (LW1 m); cbn in LW1; destruct (ed m m); [|congruence]; apply cn_in in I; fold (wakes rd) in LW1; lia).
    assert (W1 : forall x, cn x (wakes rd) <= 1) by (intros x; specialize (LW1 x); cbn in LW1; fold (wakes rd) in LW1; destruct (ed m x); lia).
    assert (WI : forall x, In x (wakes rd) -> In x (wakes (Wake m :: rd))) by (intros x I; now right).
    assert (RW : forall w, In w (remove_waiter m (waiters s)) -> In w (waiters s) /\ fst w <> m) by (intros w; apply remove_waiter_in).
    assert (HS : forall w ws x, remove_waiter m (waiters s) = w :: ws -> ~ In (x, SetResult) ws).
    { intros w ws x R I. destruct (waiters s) as [|v vs] eqn:Ws; [discriminate|]. specialize (LH v vs x eq_refl). apply LH.
      unfold remove_waiter in R. cbn in R. destruct (negb (Nat.eqb (fst v) m)).
      - injection R as -> R. subst ws. apply filter_In in I. apply I.
      - assert (J : In (x, SetResult) (w :: ws)) by now right. rewrite <- R in J. apply filter_In in J. apply J. }
    split.
    - intros HN. split; cbn [waiters holder gone ready]; auto.
      + intros x I. apply RW in I as (I & _). auto.
      + intros x I. apply RW in I as (I & _). eauto.
      + intros x f I NP. apply RW in I as (I & D). specialize (LW x f I NP). cbn in LW, D. destruct LW; [congruence|auto].
      + intros x I J. apply RW in I as (I & _). apply (LW0 x I). auto.
      + intros x I. destruct (LY x (WI x I)) as [G|G]; [auto|]. right. apply remove_waiter_in. split; [exact G|]. cbn. intros ->. auto.
      + intros x f I. apply RW in I as (I & _). eauto.
    - intros ws' w HN W. rewrite HN in *.
      assert (NP0 : forall x vs, waiters s <> (x, Pending) :: vs) by (intros x vs Y; now apply (LF x vs)).
      apply wake_first_cases in W as [(x & q & R & -> & ->)|(-> & -> & NP)].
      + assert (X : In (x, Pending) (waiters s) /\ x <> m) by (apply (RW (x, Pending)); rewrite R; now left). destruct X as (X & XD).
        assert (RQ : forall w, In w q -> In w (waiters s) /\ fst w <> m) by (intros w I; apply RW; rewrite R; now right).
        assert (XU : forall f, ~ In (x, f) q).
        { intros f I. destruct (RQ _ I) as (J & _). pose proof (c_one _ C x) as C1. unfold places in C1. rewrite !count_occ_app in C1.
          assert (K : cn x (map fst (remove_waiter m (waiters s))) <= 1) by (rewrite fst_remove, cn_remove; destruct (ed x m); lia).
          rewrite R in K. cbn in K. destruct (ed x x); [|congruence]. assert (cn x (map fst q) >= 1) by (apply cn_in; apply in_map_iff; now exists (x, f)). lia. }
        split; cbn [waiters holder gone ready]; rewrite ?wakes_app; cbn [wakes flat_map app].
        * intros y [Y|Y]; [discriminate|]. apply RQ in Y as (Y & _). auto.
        * intros v vs y Y. injection Y as <- <-. eapply HS. exact R.
        * auto.
        * intros y vs Y. discriminate.
        * intros y f [Y|Y] NPd; apply in_or_app; [injection Y as <- <-; right; now left|]. left. apply RQ in Y as (Y & D). specialize (LW y f Y NPd). cbn in LW, D. destruct LW; [congruence|auto].
        * intros y. rewrite count_occ_app. cbn. specialize (W1 y). destruct (ed x y) as [<-|D]; [|lia].
          assert (~ In x (wakes rd)) by (intros I; apply (LW0 x X); auto). apply cn_notin in H. lia.
        * intros y [Y|Y] I; [discriminate|]. apply in_app_or in I as [I|[<-|[]]]; [|now apply XU in Y]. apply RQ in Y as (Y & _). apply (LW0 y Y). auto.
        * intros y I. apply in_app_or in I as [I|[<-|[]]]; [|right; now left]. destruct (LY y (WI y I)) as [G|G]; [auto|]. right. right.
          assert (Z : In (y, SetResult) (remove_waiter m (waiters s))) by (apply remove_waiter_in; split; [exact G|cbn; intros ->; auto]).
          rewrite R in Z. destruct Z as [Z|Z]; [discriminate|exact Z].
        * intros y f [Y|Y]; [injection Y as <- <-; eauto|]. apply RQ in Y as (Y & _). eauto.
        * discriminate.
      + rewrite app_nil_r. split; cbn [waiters holder gone ready]; auto.
        * intros y I. apply RW in I as (I & _). auto.
        * intros y vs Y. now apply NP in Y.
        * intros y f I NPd. apply RW in I as (I & D). specialize (LW y f I NPd). cbn in LW, D. destruct LW; [congruence|auto].
        * intros y I J. apply RW in I as (I & _). apply (LW0 y I). auto.
        * intros y I. destruct (LY y (WI y I)) as [G|G]; [auto|]. right. apply remove_waiter_in. split; [exact G|]. cbn. intros ->. auto.
        * intros y f I. apply RW in I as (I & _). eauto.
  Qed.
  Lemma lock_step s e s' : Count s -> Lock s -> step s e s' -> Lock s'.
  Proof.
    intros C L S. destruct S.
    - exact (Lock_ready _ rd L eq_refl _ _ _ _ _ _ _ _).
    - exact (Lock_ready _ rd L eq_refl _ _ _ _ _ _ _ _).
    - apply (Lock_gone _ (m :: gn) L). intros y; cbn; auto.
    - apply (Lock_gone _ (lk c ++ gn) L). intros y I. apply in_or_app. auto.
    - refine (Lock_ready _ _ L _ _ _ _ _ _ _ _ _). cbn [ready]. rewrite wakes_app. cbn. apply app_nil_r.
    - exact (Lock_ready _ rd L eq_refl _ _ _ _ _ _ _ _).
    - refine (Lock_ready _ _ L _ _ _ _ _ _ _ _ _). cbn [ready]. rewrite wakes_app. cbn. apply app_nil_r.
    - assert (N : ~ In m (map fst ws)).
      { intros I. apply in_map_iff in I as ([y f] & E & I). cbn in E. subst y. destruct (waiter_made _ m f C I) as (_ & _ & B). apply B. cbn. now left. }
      pose proof (Lock_request _ ws' h' sa' m C L N H H0 lk ou ac ca lo ma (sa ++ sa') fi) as L'.
      exact (Lock_ready _ rd L' eq_refl _ _ _ _ _ _ _ _).
    - exact (Lock_ready _ rd L eq_refl _ _ _ _ _ _ _ _).
    - destruct (set_head _ m C L H) as (vs & E & NI). cbn [waiters] in E. subst ws. rewrite remove_waiter_head by exact NI.
      destruct (Lock_remove _ m rd C L eq_refl lk ou ac ca lo ma (sa ++ [m]) fi) as (_ & _).
      destruct L as [LC LH LS LF LW LW1 LW0 LY LR LO]. cbn [waiters holder gone ready] in *.
      assert (NW : ~ In m (wakes rd)) by (intros I; specialize (LW1 m); cbn in LW1; destruct (ed m m); [|congruence]; apply cn_in in I; fold (wakes rd) in LW1; lia).
      split; cbn [waiters holder gone ready].
      + intros x I. apply LC. now right.
      + intros w q x Y I. subst vs. apply (LH _ _ x eq_refl). now right.
      + intros x I. exfalso. now apply (LH _ _ x eq_refl).
      + congruence.
      + intros x f I NP. destruct (LW x f (or_intror I) NP) as [Y|Y]; [|exact Y]. cbn in Y. subst x. exfalso. apply NI. apply in_map_iff. now exists (m, f).
      + intros x. specialize (LW1 x). cbn in LW1. fold (wakes rd) in LW1. destruct (ed m x); lia.
      + intros x I J. apply (LW0 x (or_intror I)). now right.
      + intros x I. destruct (LY x (or_intror I)) as [G|[G|G]]; auto. injection G as ->. contradiction.
      + intros x f I. apply (LR x f). now right.
      + intros x E. injection E as <-. apply (LR m SetResult). now left.
    - destruct (Lock_remove _ m rd C L eq_refl lk ou ac' ca' lo ma sa fi) as (L1 & L2). cbn [holder waiters gone] in L1, L2. destruct h as [x|].
      + injection H1 as <- <-. rewrite app_nil_r. apply L1. congruence.
      + now apply L2.
    - eapply (Lock_release _ ws' w L C); [|exact H]. cbn. intros y I. pose proof (l_set _ L y I) as Z. discriminate.
    - exact (Lock_ready _ rd L eq_refl _ _ _ _ _ _ _ _).
    - apply (Lock_gone _ (m :: gn) L). intros y; cbn; auto.
    - destruct L as [LC LH LS LF LW LW1 LW0 LY LR LO]. cbn [waiters holder gone ready] in *. split; cbn [waiters holder gone ready]; rewrite ?wakes_app; cbn [wakes flat_map app].
      + intros x I. apply in_cancel_fut in I as [I|I]; [right; auto|]. injection I as ->. now left.
      + intros w q x E I. apply cancel_fut_head in E as (v & vs & E & _ & _ & K). apply (LH v vs x E). auto.
      + intros x I. apply (proj1 (in_cancel_fut_set _ _ _)) in I. eauto.
      + intros x q E. apply cancel_fut_head in E as (v & vs & E & _ & K & _). specialize (K eq_refl). subst v. eauto.
      + intros x f I NP. apply in_or_app. apply in_cancel_fut in I as [I|I]; [left; eauto|]. injection I as -> ->. right. now left.
      + intros x. rewrite count_occ_app. cbn. specialize (LW1 x). destruct (ed m x) as [<-|D]; [|lia]. specialize (LW0 m H). apply cn_notin in LW0. lia.
      + intros x I J. destruct (ed x m) as [->|D].
        * assert (Z : forall vs, cn m (map fst vs) <= 1 -> In (m, Pending) vs -> ~ In (m, Pending) (cancel_fut m vs)).
          { clear. induction vs as [|[y g] vs IH]; cbn; [easy|]. intros K I. destruct (Nat.eqb_spec y m) as [->|D].
            - destruct (ed m m); [|congruence]. intros [E|I']; [destruct g; congruence|]. assert (cn m (map fst vs) >= 1) by (apply cn_in; apply in_map_iff; now exists (m, Pending)). lia.
            - destruct I as [I|I]; [congruence|]. intros [E|I']; [congruence|]. destruct (ed y m); [congruence|]. now apply IH. }
          apply (Z ws); auto. pose proof (c_one _ C m) as C1. unfold places in C1. rewrite !count_occ_app in C1. cbn in C1. lia.
        * apply in_cancel_fut in I as [I|I]; [|congruence]. apply in_app_or in J as [J|[J|[]]]; [|congruence]. now apply (LW0 x).
      + intros x I. apply in_app_or in I as [I|[<-|[]]]; [|left; now left]. destruct (LY x I) as [G|G]; [left; now right|]. right. now apply in_cancel_fut_set.
      + intros x f I. apply in_cancel_fut in I as [I|I]; [eauto|]. injection I as -> ->. eauto.
      + auto.
    - apply (Lock_gone _ (m :: gn) L). intros y; cbn; auto.
    - refine (Lock_ready _ _ L _ _ _ _ _ _ _ _ _). cbn [ready]. rewrite wakes_app. cbn. apply app_nil_r.
    - refine (Lock_ready _ _ L _ _ _ _ _ _ _ _ _). cbn [ready]. rewrite wakes_app. cbn. apply app_nil_r.
    - assert (N : ~ In m (map fst ws)).
      { intros I. apply in_map_iff in I as ([y f] & E & I). cbn in E. subst y. now destruct (waiter_made _ m f C I) as (B & _ & _). }
      assert (G : ~ In m gn) by (intros G; now destruct (c_gone _ C m G)).
      exact (Lock_request _ ws' h' sa' m C L N G H2 lk ou _ _ lo _ (sa ++ sa') fi).
    - exact (Lock_ready _ rd L eq_refl _ _ _ _ _ _ _ _).
  Qed.

  (** ** Mutual exclusion: what has started has finished, except the holder *)
  Definition locked (m : nat) : bool := negb (lockfree m).
  Definition Mutex (s : st) : Prop := filter locked (started s) = filter locked (finished s) ++ match holder s with Some m => [m] | None => [] end.
  Lemma mutex_step s e s' : Lock s -> Mutex s -> step s e s' -> Mutex s'.
  Proof.
    intros L M S. unfold Mutex in *. destruct S; cbn [started finished holder] in *; auto.
    - apply request_cases in H0 as [(R & _ & -> & ->)|[(R & -> & F & _ & -> & ->)|(R & D & _ & -> & ->)]]; rewrite filter_app, M; cbn; unfold locked; rewrite ?R; cbn; now rewrite ?app_nil_r.
    - rewrite filter_app, M. pose proof (l_set _ L m H) as E. cbn in E. subst h. cbn. unfold locked at 2. rewrite (l_free _ L m SetResult H). cbn. now rewrite app_nil_r.
    - rewrite filter_app, M. cbn. unfold locked at 3. rewrite (l_holder _ L m eq_refl). cbn. now rewrite app_nil_r.
    - rewrite filter_app, M. cbn. unfold locked at 3. rewrite H. cbn. now rewrite app_nil_r.
    - apply request_cases in H2 as [(R & _ & -> & ->)|[(R & -> & F & _ & -> & ->)|(R & D & _ & -> & ->)]]; rewrite filter_app, M; cbn; unfold locked; rewrite ?R; cbn; now rewrite ?app_nil_r.
  Qed.

  (** ** One message at a time is on its way to the channel *)
  Definition Single (s : st) : Prop := forall x, cn x (map src (outgoing s)) <= 1.
  Lemma single_step s e s' : Single s -> step s e s' -> Single s'.
  Proof.
    intros I S. unfold Single in *. destruct S; cbn [outgoing] in *; auto; intros x; specialize (I x).
    - rewrite map_app, count_occ_app. cbn. destruct (ed (src m) x) as [<-|D]; [|lia].
      assert (~ In (src m) (map src ou)) by (intros Y; apply in_map_iff in Y as (y & Y1 & Y2); now apply (H1 y)). apply cn_notin in H2. lia.
    - pose proof (cn_src_remove m ou x). lia.
    - pose proof (cn_src_remove m ou x). lia.
  Qed.

  (** ** The order *)
  Definition pick (x : nat) (gn l : list nat) : list nat := filter (fun m => Nat.eqb (src m) x && locked m && negb (mem m gn)) l.
  Definition good (x : nat) (s : st) : Prop := chan x <> None \/ ~ In x (loose s).
  Definition Order (s : st) : Prop := forall x, good x s -> pick x (gone s) (made s) = pick x (gone s) (places x s).

  Lemma pick_app x gn a b : pick x gn (a ++ b) = pick x gn a ++ pick x gn b.
  Proof. apply filter_app. Qed.
  Lemma filter_filter {A} (f g : A -> bool) l : filter f (filter g l) = filter (fun x => g x && f x) l.
  Proof. induction l as [|y l IH]; cbn; [reflexivity|]. destruct (g y); cbn; [|exact IH]. destruct (f y); now rewrite IH. Qed.
  Lemma mem_app m a b : mem m (a ++ b) = mem m a || mem m b.
  Proof. apply existsb_app. Qed.
  Lemma pick_gone x g gn l : pick x (g ++ gn) l = filter (fun m => negb (mem m g)) (pick x gn l).
  Proof.
    unfold pick. rewrite filter_filter. apply filter_ext. intros m. rewrite mem_app, negb_orb. destruct (Nat.eqb (src m) x), (locked m), (mem m g), (mem m gn); reflexivity.
  Qed.
  Lemma pick_none x gn l : (forall m, In m l -> src m <> x \/ lockfree m = true \/ In m gn) -> pick x gn l = [].
  Proof.
    intros H. unfold pick. induction l as [|m l IH]; [reflexivity|]. cbn.
    replace (Nat.eqb (src m) x && locked m && negb (mem m gn)) with false; [apply IH; intros y I; apply H; now right|]. symmetry.
    destruct (H m (or_introl eq_refl)) as [K|[K|K]].
    - apply Nat.eqb_neq in K. now rewrite K.
    - unfold locked. rewrite K. now rewrite andb_false_r.
    - apply mem_in in K. rewrite K. now rewrite andb_false_r.
  Qed.
  Lemma pick_remove x gn m l : src m <> x \/ In m gn -> pick x gn (remove m l) = pick x gn l.
  Proof.
    intros H. unfold pick, remove. rewrite filter_filter. apply filter_ext. intros y. destruct (Nat.eqb_spec y m) as [->|]; [|reflexivity]. cbn. symmetry.
    destruct H as [K|K]; [apply Nat.eqb_neq in K; now rewrite K|apply mem_in in K; rewrite K; now rewrite andb_false_r].
  Qed.
  Lemma single_out x m ou gn : In m ou -> src m = x -> cn x (map src ou) <= 1 -> pick x gn ou = pick x gn [m] /\ pick x gn (remove m ou) = [].
  Proof.
    intros I E K. apply in_split in I as (p & q & ->). rewrite map_app, count_occ_app in K. cbn in K. destruct (ed (src m) x); [|congruence].
    assert (forall y, In y (p ++ q) -> src y <> x) as N.
    { intros y I Y. assert (cn x (map src (p ++ q)) >= 1) by (apply cn_in; apply in_map_iff; now exists y). rewrite map_app, count_occ_app in H. lia. }
    split.
    - rewrite pick_app. change (m :: q) with ([m] ++ q). rewrite pick_app. rewrite (pick_none x gn p), (pick_none x gn q); [now rewrite app_nil_r| |]; intros y I; left; apply N; apply in_or_app; auto.
    - apply pick_none. intros y I. apply in_remove in I as (I & D). left. apply N. apply in_app_or in I as [I|[I|I]]; apply in_or_app; auto; congruence.
  Qed.
  Lemma cancelled_waiters s x : Lock s -> forallb is_cancelled (waiters s) = true -> pick x (gone s) (map fst (waiters s)) = [].
  Proof.
    intros L F. apply pick_none. intros m I. right. right. apply in_map_iff in I as ([y f] & E & I). cbn in E. subst y. rewrite forallb_forall in F. specialize (F _ I).
    apply (l_cancelled _ L). destruct f; try discriminate. exact I.
  Qed.
  Lemma request_pick s m ws' h' sa' x l : Lock s -> request lockfree (waiters s) (holder s) m = (ws', h', sa') -> (forall y, In y l -> src m = x -> src y <> x) ->
    pick x (gone s) (sa' ++ map fst ws' ++ l) = pick x (gone s) (map fst (waiters s) ++ m :: l) /\
    pick x (gone s) (sa' ++ map fst ws' ++ l) = pick x (gone s) (map fst (waiters s) ++ l ++ [m]).
  Proof.
    intros L R N.
    assert (X : pick x (gone s) (map fst (waiters s) ++ m :: l) = pick x (gone s) (map fst (waiters s) ++ l ++ [m])).
    { destruct (ed (src m) x) as [E|E].
      - change (m :: l) with ([m] ++ l). rewrite !pick_app. rewrite (pick_none x (gone s) l); [now rewrite app_nil_r|]. intros y I. left. now apply N.
      - change (m :: l) with ([m] ++ l). rewrite !pick_app. rewrite (pick_none x (gone s) [m]); [now rewrite app_nil_r|]. intros y [<-|[]]. now left. }
    rewrite <- X. enough (pick x (gone s) (sa' ++ map fst ws' ++ l) = pick x (gone s) (map fst (waiters s) ++ m :: l)) by auto. clear X N.
    change (m :: l) with ([m] ++ l). apply request_cases in R as [(R & -> & -> & ->)|[(R & HN & F & -> & -> & ->)|(R & D & -> & -> & ->)]].
    - rewrite !pick_app. rewrite (pick_none x (gone s) [m]); [reflexivity|]. intros y [<-|[]]. auto.
    - rewrite !pick_app. rewrite (cancelled_waiters s x L F). reflexivity.
    - rewrite map_app. cbn [app map fst]. now rewrite <- !app_assoc.
  Qed.
  Lemma request_pick' s m ws' h' sa' x l : Lock s -> request lockfree (waiters s) (holder s) m = (ws', h', sa') ->
    pick x (gone s) (sa' ++ map fst ws' ++ l) = pick x (gone s) (map fst (waiters s) ++ m :: l).
  Proof.
    intros L R. change (m :: l) with ([m] ++ l). apply request_cases in R as [(R & -> & -> & ->)|[(R & HN & F & -> & -> & ->)|(R & D & -> & -> & ->)]].
    - rewrite !pick_app. rewrite (pick_none x (gone s) [m]); [reflexivity|]. intros y [<-|[]]. auto.
    - rewrite !pick_app. rewrite (cancelled_waiters s x L F). reflexivity.
    - rewrite map_app. cbn [app map fst]. now rewrite <- !app_assoc.
  Qed.
  Lemma more_gone x g gn a b : pick x gn a = pick x gn b -> pick x (g ++ gn) a = pick x (g ++ gn) b.
  Proof. intros E. now rewrite !pick_gone, E. Qed.

  Lemma order_step s e s' : Count s -> Token s -> Follow s -> Lock s -> Single s -> Order s -> step s e s' -> Order s'.
  Proof.
    intros C T F L SG O S x G. specialize (O x). unfold good in *.
    assert (O' : pick x (gone s) (made s) = pick x (gone s) (places x s)).
    { apply O. destruct G as [G|G]; [auto|]. right. intros Y. apply G. destruct S; cbn in *; auto. }
    clear O. rename O' into O. destruct S; unfold places in *; cbn [gone made started waiters ready links outgoing loose] in *.
    - rewrite pick_app, O. cbn [app]. rewrite !pick_app, <- !app_assoc. reflexivity.
    - rewrite O. rewrite !pick_app. do 3 f_equal. destruct (ed (src m) x) as [E|E].
      + subst x. rewrite linkof_upd, H, Nat.eqb_refl. rewrite (linkof_in _ _ _ H), pick_app.
        destruct (single_out (src m) m ou gn H0 eq_refl (SG _)) as (-> & ->). now rewrite app_nil_r.
      + rewrite pick_remove by auto. f_equal. rewrite linkof_upd. unfold linkof. destruct (chan x) as [c'|]; [|reflexivity].
        destruct (Nat.eqb_spec c' c); [subst|reflexivity]. rewrite pick_app, (pick_none x gn [m]); [now rewrite app_nil_r|]. intros y [<-|[]]. auto.
    - change (m :: gn) with ([m] ++ gn). rewrite (more_gone _ [m] _ _ _ O). rewrite !pick_app. do 4 f_equal. symmetry. apply pick_remove. right. now left.
    - rewrite (more_gone _ (lk c) _ _ _ O). rewrite !pick_app. do 4 f_equal. rewrite linkof_upd. unfold linkof. destruct (chan x) as [c'|]; [|reflexivity].
      destruct (Nat.eqb_spec c' c); [subst|reflexivity]. apply pick_none. intros y I. right. right. apply in_or_app. auto.
    - rewrite O. rewrite begins_app. cbn. now rewrite app_nil_r.
    - exact O.
    - rewrite O. rewrite begins_app. cbn [begins flat_map app]. fold (begins rd). rewrite !pick_app. do 2 f_equal.
      rewrite <- !app_assoc. f_equal. rewrite linkof_upd. unfold linkof.
      assert (Hc : chan (src m) = Some c) by (apply (c_link _ C); cbn; rewrite H; now left).
      destruct (ed (src m) x) as [<-|D].
      + rewrite Hc, Nat.eqb_refl, H. change (m :: q) with ([m] ++ q). rewrite pick_app. now rewrite <- !app_assoc.
      + rewrite (pick_none x gn [m]) by (intros y [<-|[]]; auto). cbn [app]. destruct (chan x) as [c'|]; [|reflexivity].
        destruct (Nat.eqb_spec c' c); [subst|reflexivity]. rewrite H. change (m :: q) with ([m] ++ q). rewrite pick_app, (pick_none x gn [m]) by (intros y [<-|[]]; auto). reflexivity.
    - rewrite O. cbn [begins flat_map app]. fold (begins rd). rewrite <- app_assoc.
      pose proof (request_pick' _ m ws' h' sa' x (begins rd ++ linkof x lk ++ ou) L H0) as R. cbn [gone waiters] in R. rewrite pick_app, (pick_app x gn sa (sa' ++ _)). now rewrite R.
    - rewrite O. cbn [begins flat_map app]. fold (begins rd). rewrite pick_app, (pick_app x gn sa). f_equal. rewrite !(pick_app x gn (map fst ws)). f_equal.
      change (m :: begins rd ++ linkof x lk ++ ou) with ([m] ++ begins rd ++ linkof x lk ++ ou). rewrite pick_app, (pick_none x gn [m]) by (intros y [<-|[]]; auto). reflexivity.
    - destruct (set_head _ m C L H) as (vs & E & NI). cbn [waiters] in E. subst ws. rewrite remove_waiter_head by exact NI. rewrite O. cbn [map fst]. rewrite <- app_assoc. reflexivity.
    - assert (B : begins w = [] /\ map fst ws' = remove m (map fst ws)).
      { destruct h; [injection H1 as <- <-; now rewrite fst_remove|]. split; [eapply wake_begins; eauto|]. rewrite (fst_wake _ _ _ H1). apply fst_remove. }
      destruct B as (B1 & B2). rewrite O, begins_app, B1, B2, app_nil_r. cbn [begins flat_map app]. fold (begins rd). rewrite !pick_app. do 2 f_equal. symmetry. apply pick_remove. auto.
    - rewrite O, begins_app, (wake_begins _ _ _ H), (fst_wake _ _ _ H), app_nil_r. reflexivity.
    - exact O.
    - change (m :: gn) with ([m] ++ gn). now apply more_gone.
    - change (m :: gn) with ([m] ++ gn). rewrite begins_app, fst_cancel. cbn. rewrite app_nil_r. now apply (more_gone _ [m]).
    - change (m :: gn) with ([m] ++ gn). now apply more_gone.
    - rewrite pick_app, O. rewrite begins_app. cbn [begins flat_map app]. rewrite !pick_app, <- !app_assoc. do 3 f_equal. destruct (ed (src m) x) as [<-|D].
      + unfold linkof. rewrite H. rewrite (pick_none _ gn ou); [now rewrite !app_nil_r|]. intros y I. left. intros Y. pose proof (c_out _ C y I). cbn in *. congruence.
      + rewrite (pick_none x gn [m]) by (intros y [<-|[]]; auto). now rewrite app_nil_r.
    - rewrite pick_app, O. rewrite begins_app. cbn [begins flat_map app]. rewrite !pick_app, <- !app_assoc. do 3 f_equal. destruct (ed (src m) x) as [<-|D].
      + exfalso. destruct G as [G|G]; [congruence|]. apply G. now left.
      + rewrite (pick_none x gn [m]) by (intros y [<-|[]]; auto). now rewrite app_nil_r.
    - rewrite pick_app, O. rewrite <- (app_assoc sa).
      assert (N : forall y, In y (begins rd ++ linkof x lk ++ ou) -> src m = x -> src y <> x).
      { intros y I <-. assert (NL : ~ In (src m) lo) by (destruct G as [G|G]; [congruence|exact G]).
        apply in_app_or in I as [I|I]; [|apply in_app_or in I as [I|I]].
        - eapply (active_no_begin _ (src m) T F); eauto. cbn. subst ac. apply in_or_app. right. now left.
        - unfold linkof in I. rewrite H in I. easy.
        - intros Y. pose proof (c_out _ C y I). cbn in *. congruence. }
      destruct (request_pick _ m ws' h' sa' x _ L H2 N) as (_ & R). cbn [gone waiters] in R. rewrite (pick_app x gn sa (sa' ++ _)), R.
      rewrite !pick_app, <- !app_assoc. reflexivity.
    - exact O.
  Qed.

  Record Inv (s : st) : Prop := { i_count : Count s; i_token : Token s; i_follow : Follow s; i_lock : Lock s; i_mutex : Mutex s; i_single : Single s; i_order : Order s }.
  Lemma inv_init ts : NoDup ts -> Inv (init ts).
  Proof.
    intros N. unfold init. split.
    - split; cbn; try easy; [constructor|..]; intros m; unfold places; cbn; unfold linkof; destruct (chan (src m)); cbn; auto; easy.
    - intros x. unfold tokens. cbn. rewrite (NoDup_count_occ ed) in N. specialize (N x). lia.
    - intros p m q E. cbn in E. destruct p; discriminate.
    - split; cbn; try easy; auto.
    - reflexivity.
    - intros x. cbn. lia.
    - intros x _. unfold places. cbn. unfold linkof. destruct (chan x); reflexivity.
  Qed.
  Lemma inv_step s e s' : Inv s -> step s e s' -> Inv s'.
  Proof.
    intros [C T F L M SG O] S. split; [eapply count_step|eapply token_step|eapply follow_step|eapply lock_step|eapply mutex_step|eapply single_step|eapply order_step]; eauto.
  Qed.
  Lemma inv_run ts s : NoDup ts -> run src chan lockfree ts s -> Inv s.
  Proof. intros N R. induction R; [now apply inv_init|eapply inv_step; eauto]. Qed.
End inv.
