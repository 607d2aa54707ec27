(** Proofs for C69: the stack machine of [deserialize] against a recursive specification. *)
From Coq Require Import List Arith Bool Lia.
From Verif Require Import UnwindModel UnwindSpec.
Import ListNotations.

Scheme loads_mind := Induction for loads Sort Prop
  with all_mind := Induction for loads_all Sort Prop
  with fails_mind := Induction for fails_at Sort Prop.
Combined Scheme loads_mutind from loads_mind, all_mind, fails_mind.

Section Unwind.
  Variables Hd V E B Ctx : Type.
  Variable leaf : Ctx -> Hd -> list B -> (V + E) * Ctx.
  Variable node : Ctx -> Hd -> list V -> (V + E) * Ctx.
  Variable on_error : Hd -> nat -> E -> option E.
  Variable buffers : list B.
  Notation tree := (tree Hd).
  Notation step := (step Hd V E B Ctx leaf node on_error buffers).
  Notation loop := (loop Hd V E B Ctx leaf node on_error).
  Notation mach := (mach Hd V E Ctx).

  Notation loads := (loads Hd V E B Ctx leaf node on_error buffers).
  Notation loads_all := (loads_all Hd V E B Ctx leaf node on_error buffers).
  Notation fails_at := (fails_at Hd V E B Ctx leaf node on_error buffers).

  (** ** The machine *)
  Inductive reaches : mach -> mach -> Prop :=
  | reaches_refl m : reaches m m
  | reaches_step m m' : stack m <> [] -> reaches (step m) m' -> reaches m m'.
  Lemma reaches_trans : forall a b, reaches a b -> forall c, reaches b c -> reaches a c.
  Proof. induction 1 as [m|m m' NE R IH]; intros; auto. apply reaches_step; auto. Qed.
  Lemma reaches_loop : forall m m', reaches m m' -> stack m' = [] -> exists k, forall fuel, k <= fuel -> loop fuel buffers m = Some m'.
  Proof.
    induction 1 as [m|m m' NE R IH]; intros St.
    - exists 0. intros fuel _. destruct fuel; cbn; now rewrite St.
    - destruct (IH St) as [k K]. exists (S k). intros [|fuel] L; [lia|]. cbn [UnwindModel.loop].
      destruct (stack m) eqn:Q; [contradiction|]. apply K. lia.
  Qed.

  (** The topmost item has the sub-components [subs], of which [d] are deserialized. *)
  Inductive at_item (hd : Hd) (subs : list tree) (d : list V) (rest : list (item Hd V)) (c : Ctx) (p : nat) : mach -> Prop :=
  | at_fresh : at_item hd subs d rest c p (mkMach (mkItem hd subs d :: rest) None None c p)
  | at_last id v : d = id ++ [v] -> at_item hd subs d rest c p (mkMach (mkItem hd subs id :: rest) (Some v) None c p).

  Lemma at_stack : forall hd subs d rest c p m, at_item hd subs d rest c p m -> stack m <> [].
  Proof. intros. destruct H; discriminate. Qed.

  Lemma run_mut :
    (forall c p t r c' p', loads c p t r c' p' -> forall hd subs d rest m, at_item hd subs d rest c p m ->
       nth_error subs (length d) = Some t ->
       match r with
       | inl v => reaches m (mkMach (mkItem hd subs d :: rest) (Some v) None c' p')
       | inr e => reaches m (mkMach (mkItem hd subs d :: rest) None (Some e) c' p')
       end) /\
    (forall c p ts vs c' p', loads_all c p ts vs c' p' -> forall hd subs d rest m, at_item hd subs d rest c p m ->
       skipn (length d) subs = ts -> exists m', reaches m m' /\ at_item hd subs (d ++ vs) rest c' p' m') /\
    (forall c p ts i e c' p', fails_at c p ts i e c' p' -> forall hd subs d rest m, at_item hd subs d rest c p m ->
       skipn (length d) subs = ts -> exists d', length d' = length d + i /\
         reaches m (mkMach (mkItem hd subs d' :: rest) None (Some e) c' p')).
  Proof.
    assert (SK : forall (l : list tree) n t ts, skipn n l = t :: ts -> nth_error l n = Some t /\ skipn (S n) l = ts).
    { induction l as [|x l IH]; intros [|n] t ts Q; cbn [skipn nth_error] in *; try discriminate.
      - injection Q as -> ->. auto.
      - apply IH in Q. auto. }
    apply loads_mutind.
    - intros c p hd' n v c' L hd subs d rest m A N. apply reaches_step; [eapply at_stack; eauto|].
      destruct A as [|id w ->]; cbn [UnwindModel.step stack last exc i_done i_subs i_head ctx pos]; rewrite N, L; apply reaches_refl.
    - intros c p hd' n v c' L hd subs d rest m A N. apply reaches_step; [eapply at_stack; eauto|].
      destruct A as [|id w ->]; cbn [UnwindModel.step stack last exc i_done i_subs i_head ctx pos]; rewrite N, L; apply reaches_refl.
    - intros c p hd' s ss vs c' p' r c'' LA IH Nd hd subs d rest m A N.
      assert (R0 : reaches m (mkMach (mkItem hd' (s :: ss) [] :: mkItem hd subs d :: rest) None None c p)).
      { apply reaches_step; [eapply at_stack; eauto|].
        destruct A as [|id w ->]; cbn [UnwindModel.step stack last exc i_done i_subs i_head ctx pos]; rewrite N; apply reaches_refl. }
      destruct (IH hd' (s :: ss) [] (mkItem hd subs d :: rest) _ (at_fresh _ _ _ _ _ _) eq_refl) as (m' & R1 & A1).
      assert (Len : length vs = length (s :: ss)).
      { clear - LA. revert LA. generalize (s :: ss). intros l LA. induction LA; cbn; auto. }
      assert (NN : nth_error (s :: ss) (length vs) = None) by (apply nth_error_None; lia).
      cbn [app] in A1.
      assert (Rf : reaches m' (match r with inl v => mkMach (mkItem hd subs d :: rest) (Some v) None c'' p'
        | inr e => mkMach (mkItem hd subs d :: rest) None (Some e) c'' p' end)).
      { apply reaches_step; [eapply at_stack; eauto|].
        destruct A1 as [|id w ->]; cbn [UnwindModel.step stack last exc i_done i_subs i_head ctx pos];
          rewrite NN, Nd; destruct r; apply reaches_refl. }
      destruct r; (eapply reaches_trans; [exact R0|]; eapply reaches_trans; [exact R1|]; exact Rf).
    - intros c p hd' s ss i e c' p' FA IH hd subs d rest m A N.
      assert (R0 : reaches m (mkMach (mkItem hd' (s :: ss) [] :: mkItem hd subs d :: rest) None None c p)).
      { apply reaches_step; [eapply at_stack; eauto|].
        destruct A as [|id w ->]; cbn [UnwindModel.step stack last exc i_done i_subs i_head ctx pos]; rewrite N; apply reaches_refl. }
      destruct (IH hd' (s :: ss) [] (mkItem hd subs d :: rest) _ (at_fresh _ _ _ _ _ _) eq_refl) as (d' & Ld & R1).
      cbn in Ld. eapply reaches_trans; [exact R0|]. eapply reaches_trans; [exact R1|].
      apply reaches_step; [discriminate|]. cbn [UnwindModel.step stack last exc i_done i_subs i_head ctx pos].
      unfold rewritten. rewrite Ld. apply reaches_refl.
    - intros c p hd subs d rest m A Sk. exists m. rewrite app_nil_r. split; [apply reaches_refl|exact A].
    - intros c p t v c' p' ts vs c'' p'' L IHL LA IHA hd subs d rest m A Sk. apply SK in Sk. destruct Sk as [N Sk].
      specialize (IHL _ _ _ _ _ A N). cbn in IHL.
      assert (A2 : at_item hd subs (d ++ [v]) rest c' p' (mkMach (mkItem hd subs d :: rest) (Some v) None c' p')) by (eapply at_last; reflexivity).
      destruct (IHA _ _ _ _ _ A2) as (m' & R & A'). { rewrite app_length. cbn. now rewrite Nat.add_1_r. }
      exists m'. split; [eapply reaches_trans; eauto|]. now rewrite <- app_assoc in A'.
    - intros c p t e c' p' ts L IHL hd subs d rest m A Sk. apply SK in Sk. destruct Sk as [N Sk].
      specialize (IHL _ _ _ _ _ A N). cbn in IHL. exists d. split; [lia|exact IHL].
    - intros c p t v c' p' ts i e c'' p'' L IHL LA IHA hd subs d rest m A Sk. apply SK in Sk. destruct Sk as [N Sk].
      specialize (IHL _ _ _ _ _ A N). cbn in IHL.
      assert (A2 : at_item hd subs (d ++ [v]) rest c' p' (mkMach (mkItem hd subs d :: rest) (Some v) None c' p')) by (eapply at_last; reflexivity).
      destruct (IHA _ _ _ _ _ A2) as (d' & Ld & R). { rewrite app_length. cbn. now rewrite Nat.add_1_r. }
      exists d'. split; [rewrite Ld, app_length; cbn; lia|]. eapply reaches_trans; eauto.
  Qed.

  Lemma top : forall c hd s ss r c' p', loads c 0 (Node hd s ss) r c' p' ->
    exists k, forall fuel, k <= fuel -> deserialize Hd V E B Ctx leaf node on_error fuel buffers c (Node hd s ss) =
      Some (match r with inl v => Returned v | inr e => Raised e end).
  Proof.
    intros c hd s ss r c' p' L. destruct run_mut as (_ & RA & RF).
    assert (G : exists m', reaches (mkMach [mkItem hd (s :: ss) []] None None c 0) m' /\ stack m' = [] /\
      match r with inl v => last m' = Some v /\ exc m' = None | inr e => exc m' = Some e end).
    { inversion L; subst.
      - match goal with LA : loads_all _ _ _ _ _ _ |- _ =>
          destruct (RA _ _ _ _ _ _ LA hd (s :: ss) [] [] _ (at_fresh _ _ _ _ _ _) eq_refl) as (m' & R1 & A1);
          assert (Len : length vs = length (s :: ss)) by (clear - LA; revert LA; generalize (s :: ss); intros l LA; induction LA; cbn; auto)
        end.
        assert (NN : nth_error (s :: ss) (length vs) = None) by (apply nth_error_None; lia). cbn [app] in A1.
        match goal with Nd : node _ _ _ = _ |- _ => rename Nd into Nd0 end.
        exists (step m'). split; [eapply reaches_trans; [exact R1|]; apply reaches_step; [eapply at_stack; eauto|apply reaches_refl]|].
        destruct A1 as [|id w ->]; cbn [UnwindModel.step stack last exc i_done i_subs i_head ctx pos]; rewrite NN, Nd0; destruct r; cbn; auto.
      - match goal with FA : fails_at _ _ _ _ _ _ _ |- _ =>
          destruct (RF _ _ _ _ _ _ _ FA hd (s :: ss) [] [] _ (at_fresh _ _ _ _ _ _) eq_refl) as (d' & Ld & R1) end.
        eexists. split; [eapply reaches_trans; [exact R1|]; apply reaches_step; [discriminate|apply reaches_refl]|].
        cbn [UnwindModel.step stack last exc i_done i_subs i_head ctx pos]. split; auto. unfold rewritten. cbn in Ld. now rewrite Ld. }
    destruct G as (m' & R & St & Q). destruct (reaches_loop _ _ R St) as [k K]. exists k. intros fuel Lf.
    unfold deserialize. rewrite K by auto. destruct r as [v|e]; [destruct Q as [-> ->]|rewrite Q]; reflexivity.
  Qed.

  (** Every component has an outcome. *)
  Lemma outcome : forall t c p, exists r c' p', loads c p t r c' p'.
  Proof.
    fix IH 1. intros [hd n|hd s ss] c p.
    - destruct (leaf c hd (firstn n (skipn p buffers))) as [[v|e] c'] eqn:L.
      + exists (inl v), c', (p + n). now constructor.
      + exists (inr e), c', p. now constructor.
    - assert (G : forall l c p, (exists vs c' p', loads_all c p l vs c' p') \/ (exists i e c' p', fails_at c p l i e c' p')).
      { fix IHl 1. intros [|t l] c0 p0; [left; exists [], c0, p0; constructor|].
        destruct (IH t c0 p0) as ([v|e] & c1 & p1 & L).
        - destruct (IHl l c1 p1) as [(vs & c2 & p2 & A)|(i & e & c2 & p2 & A)].
          + left. exists (v :: vs), c2, p2. econstructor; eauto.
          + right. exists (S i), e, c2, p2. econstructor; eauto.
        - right. exists 0, e, c1, p1. now constructor. }
      assert (Gs : (exists vs c' p', loads_all c p (s :: ss) vs c' p') \/ (exists i e c' p', fails_at c p (s :: ss) i e c' p')).
      { destruct (IH s c p) as ([v|e] & c1 & p1 & L).
        - destruct (G ss c1 p1) as [(vs & c2 & p2 & A)|(i & e & c2 & p2 & A)].
          + left. exists (v :: vs), c2, p2. econstructor; eauto.
          + right. exists (S i), e, c2, p2. econstructor; eauto.
        - right. exists 0, e, c1, p1. now constructor. }
      destruct Gs as [(vs & c2 & p2 & A)|(i & e & c2 & p2 & A)].
      + destruct (node c2 hd vs) as [r c3] eqn:N. exists r, c3, p2. econstructor; eauto.
      + eexists _, c2, p2. eapply loads_node_fails; eauto.
  Qed.
End Unwind.
