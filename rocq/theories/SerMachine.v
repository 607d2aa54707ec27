(** The serialization machines follow the recursive descriptions below. *)
From Coq Require Import List Arith Bool ZArith Lia.
From Verif Require Import Base Dict SerModel.
Import ListNotations.

Section M.
  Variables P C H B : Type.
  Variable leaf_head : C -> H.
  Variable leaf_bufs : C -> list B.
  Variable leaf_load : H -> list B -> option C.
  Notation heap := (heap P C).
  Notation tree := (tree P H).
  Notation mach := (mach P H B).
  Notation item := (item P H).
  Notation serial_single := (serial_single P C H B leaf_head leaf_bufs).
  Notation mstep := (mstep P C H B leaf_head leaf_bufs).
  Notation mloop := (mloop P C H B leaf_head leaf_bufs).
  Notation serialize := (serialize P C H B leaf_head leaf_bufs).
  Notation serialize_with_spawn := (serialize_with_spawn P C H B leaf_head leaf_bufs).
  Notation deserial_single := (deserial_single P C H B leaf_load).
  Notation dstep := (dstep P C H B leaf_load).
  Notation dloop := (dloop P C H B leaf_load).
  Notation deserialize := (deserialize P C H B leaf_load).
  Notation dmach := (dmach P C H).
  Notation dst := (dst P C).
  Notation dval := (dval P).

  (** *** Serializing *)

  Definition sers (f : sst -> nat -> option (tree * sst * list B)) :=
    fix go (s : sst) (l : list nat) : option (list tree * sst * list B) :=
      match l with
      | [] => Some ([], s, [])
      | a :: l' =>
          match f s a with
          | None => None
          | Some (t, s1, bs) =>
              match go s1 l' with
              | None => None
              | Some (ts, s2, bs') => Some (t :: ts, s2, bs ++ bs')
              end
          end
      end.

  Fixpoint ser (fuel : nat) (h : heap) (s : sst) (a : nat) : option (tree * sst * list B) :=
    match fuel with
    | 0 => None
    | S f =>
        match serial_single h s a with
        | None => None
        | Some (hd, inl bs, s') => Some (T hd [], s', bs)
        | Some (hd, inr subs, s') =>
            match sers (ser f h) s' subs with
            | None => None
            | Some (ts, s2, bs) => Some (T hd ts, s2, bs)
            end
        end
    end.

  Inductive steps (h : heap) : mach -> nat -> mach -> Prop :=
  | steps0 : forall m, steps h m 0 m
  | stepsS : forall m m1 k m2, m_stack _ _ _ m <> [] -> mstep h m = Some m1 -> steps h m1 k m2 ->
      steps h m (S k) m2.

  Lemma steps_trans : forall h m1 j m2 k m3, steps h m1 j m2 -> steps h m2 k m3 -> steps h m1 (j + k) m3.
  Proof. induction 1; simpl; intros; auto. econstructor; eauto. Qed.

  Definition pend (it : item) (x : option tree) : list tree :=
    match x with Some t => it_done _ _ it ++ [t] | None => it_done _ _ it end.

  (** A state that has collected [dn] for the item on top. *)
  Definition at_ (m : mach) (hd : head P H) (subs : list nat) (dn : list tree) (rest : list item)
      (s : sst) (bufs : list B) (n : nat) : Prop :=
    exists it, m_stack _ _ _ m = it :: rest /\ it_head _ _ it = hd /\ it_subs _ _ it = subs /\
      pend it (m_ser _ _ _ m) = dn /\ m_s _ _ _ m = s /\ m_bufs _ _ _ m = bufs /\ m_n _ _ _ m = n.

  Lemma run_subs : forall h f,
    (forall s a t s' bs, ser f h s a = Some (t, s', bs) ->
       forall m hd subs dn rest bufs n, at_ m hd subs dn rest s bufs n ->
       nth_error subs (length dn) = Some a ->
       exists k m', steps h m (S k) m' /\ at_ m' hd subs (dn ++ [t]) rest s' (bufs ++ bs) (n + S k)) ->
    forall l s ts s' bs, sers (ser f h) s l = Some (ts, s', bs) ->
      forall m hd pre dn rest bufs n, at_ m hd (pre ++ l) dn rest s bufs n -> length dn = length pre ->
      exists k m', steps h m k m' /\ at_ m' hd (pre ++ l) (dn ++ ts) rest s' (bufs ++ bs) (n + k).
  Proof.
    intros h f IH. induction l as [|a l IL]; simpl; intros s ts s' bs E m hd pre dn rest bufs n A L.
    - inversion E; subst. exists 0, m. split; [constructor|]. rewrite !app_nil_r, Nat.add_0_r in *. exact A.
    - destruct (ser f h s a) as [[[t s1] bs1]|] eqn:E1; [|discriminate].
      destruct (sers (ser f h) s1 l) as [[[ts2 s2] bs2]|] eqn:E2; [|discriminate].
      inversion E; subst. clear E.
      destruct (IH _ _ _ _ _ E1 _ _ _ _ _ _ _ A) as [k [m1 [S1 A1]]].
      { rewrite nth_error_app2; [|lia]. rewrite L, Nat.sub_diag. reflexivity. }
      replace (pre ++ a :: l) with ((pre ++ [a]) ++ l) in * by (rewrite <- app_assoc; reflexivity).
      destruct (IL _ _ _ _ E2 _ _ _ _ _ _ _ A1) as [k2 [m2 [S2 A2]]].
      { rewrite !app_length. simpl. lia. }
      exists (S k + k2), m2. split; [eapply steps_trans; eauto|].
      rewrite <- !app_assoc in *. simpl in *. replace (n + S (k + k2)) with (n + S k + k2) by lia. exact A2.
  Qed.

  Lemma nth_error_len : forall A (l : list A), nth_error l (length l) = None.
  Proof. intros. apply nth_error_None. lia. Qed.

  (** Finishing the item on top. *)
  Lemma finish : forall h m hd subs ts it2 rest s bufs n dn,
    at_ m hd subs ts (it2 :: rest) s bufs n -> length ts = length subs -> it_done _ _ it2 = dn ->
    exists m', mstep h m = Some m' /\ m_stack _ _ _ m <> [] /\
      at_ m' (it_head _ _ it2) (it_subs _ _ it2) (dn ++ [T hd ts]) rest s bufs (S n).
  Proof.
    intros h m hd subs ts it2 rest s bufs n dn [it [E1 [E2 [E3 [E4 [E5 [E6 E7]]]]]]] L D.
    unfold SerModel.mstep. rewrite E1. fold (pend it (m_ser _ _ _ m)). rewrite E4, E3, L, nth_error_len.
    eexists. split; [reflexivity|]. split; [discriminate|].
    exists it2. simpl. unfold pend. simpl. subst. auto 10.
  Qed.

  Lemma sers_length : forall f l s ts s' bs, sers f s l = Some (ts, s', bs) -> length ts = length l.
  Proof.
    induction l as [|a l IH]; simpl; intros s ts s' bs E.
    - inversion E. reflexivity.
    - destruct (f s a) as [[[t s1] bs1]|]; [|discriminate].
      destruct (sers f s1 l) as [[[ts2 s2] bs2]|] eqn:E2; [|discriminate]. inversion E. simpl. f_equal. eauto.
  Qed.

  Lemma run_ser : forall h f s a t s' bs, ser f h s a = Some (t, s', bs) ->
       forall m hd subs dn rest bufs n, at_ m hd subs dn rest s bufs n ->
       nth_error subs (length dn) = Some a ->
       exists k m', steps h m (S k) m' /\ at_ m' hd subs (dn ++ [t]) rest s' (bufs ++ bs) (n + S k).
  Proof.
    intros h. induction f as [|f IH]; simpl; intros s a t s' bs E m hd subs dn rest bufs n A N; [discriminate|].
    destruct (serial_single h s a) as [[[hd1 [bs1|subs1]] s1]|] eqn:SS; [| |discriminate].
    - (* leaf *)
      inversion E; subst. clear E. destruct A as [it [E1 [E2 [E3 [E4 [E5 [E6 E7]]]]]]].
      exists 0. eexists. split.
      { econstructor; [rewrite E1; discriminate| |constructor].
        unfold SerModel.mstep. rewrite E1. fold (pend it (m_ser _ _ _ m)). rewrite E4, E3, N, E5, SS. reflexivity. }
      eexists. simpl. split; [reflexivity|]. simpl. unfold pend. simpl. subst. repeat split; auto. lia.
    - destruct (sers (ser f h) s1 subs1) as [[[ts s2] bs2]|] eqn:E1; [|discriminate].
      inversion E; subst. clear E.
      destruct A as [it [A1 [A2 [A3 [A4 [A5 [A6 A7]]]]]]].
      destruct subs1 as [|b subs1].
      + (* a container without sub-components *)
        simpl in E1. inversion E1; subst. rewrite app_nil_r.
        exists 0. eexists. split.
        { econstructor; [rewrite A1; discriminate| |constructor].
          unfold SerModel.mstep. rewrite A1. fold (pend it (m_ser _ _ _ m)). rewrite N, SS. reflexivity. }
        eexists. simpl. split; [reflexivity|]. simpl. unfold pend. simpl. subst. repeat split; auto. lia.
      + set (it' := {| it_head := it_head _ _ it; it_subs := it_subs _ _ it; it_done := dn |}).
        set (m1 := {| m_stack := {| it_head := hd1; it_subs := b :: subs1; it_done := [] |} :: it' :: rest;
                      m_ser := None; m_s := s1; m_bufs := bufs; m_n := S n |}).
        assert (S1 : mstep h m = Some m1).
        { unfold SerModel.mstep. rewrite A1. fold (pend it (m_ser _ _ _ m)). rewrite A4, A3, N, A5, SS.
          unfold m1, it'. rewrite A3. subst. reflexivity. }
        assert (B1 : at_ m1 hd1 ([] ++ b :: subs1) [] (it' :: rest) s1 bufs (S n)).
        { eexists. simpl. split; [reflexivity|]. simpl. repeat split; auto. }
        destruct (run_subs h f IH _ _ _ _ _ E1 _ _ [] _ _ _ _ B1 eq_refl) as [k [m2 [S2 B2]]].
        destruct (finish h _ _ _ _ _ _ _ _ _ dn B2) as [m3 [S3 [S3' B3]]].
        { simpl. eapply sers_length in E1. simpl in E1. auto. }
        { reflexivity. }
        exists (k + 1), m3. split.
        * econstructor; [rewrite A1; discriminate|exact S1|].
          eapply steps_trans; [exact S2|]. econstructor; eauto. constructor.
        * simpl in B3. rewrite A2, A3 in B3. replace (n + S (k + 1)) with (S (S n + k)) by lia. exact B3.
  Qed.

  (** Reaching the empty stack. *)
  Lemma run_top : forall h f hd l s ts s' bs, sers (ser f h) s l = Some (ts, s', bs) ->
    exists k m', steps h {| m_stack := [{| it_head := hd; it_subs := l; it_done := [] |}];
                            m_ser := None; m_s := s; m_bufs := []; m_n := 0 |} k m' /\
      m_stack _ _ _ m' = [] /\ m_ser _ _ _ m' = Some (T hd ts) /\ m_bufs _ _ _ m' = bs /\ m_n _ _ _ m' = k.
  Proof.
    intros h f hd l s ts s' bs E.
    destruct (run_subs h f (run_ser h f) _ _ _ _ _ E
      {| m_stack := [{| it_head := hd; it_subs := l; it_done := [] |}];
         m_ser := None; m_s := s; m_bufs := []; m_n := 0 |} hd [] [] [] [] 0) as [k [m2 [S2 A2]]].
    { eexists. simpl. split; [reflexivity|]. repeat split. }
    { reflexivity. }
    destruct A2 as [it [E1 [E2 [E3 [E4 [E5 [E6 E7]]]]]]]. simpl in *.
    exists (k + 1). eexists. split.
    { eapply steps_trans; [exact S2|]. econstructor; [rewrite E1; discriminate| |constructor].
      unfold SerModel.mstep. rewrite E1. fold (pend it (m_ser _ _ _ m2)). rewrite E4, E3.
      rewrite (sers_length _ _ _ _ _ _ E), nth_error_len. reflexivity. }
    simpl. repeat split; auto; [congruence|lia].
  Qed.

  Lemma mloop_overflow : forall h m k m', steps h m k m' -> m_stack _ _ _ m' = [] ->
    forall fuel z, k <= fuel ->
    mloop fuel h z m = Some (Finished m') \/
    ((0 < z)%Z /\ exists m2 j, mloop fuel h z m = Some (Overflow m2) /\ steps h m2 j m' /\ j <= k /\ j < k + 1 /\
       0 < m_n _ _ _ m2).
  Proof.
    induction 1 as [m|m m1 k m2 N E S IH]; intros Z0 fuel z L.
    - left. destruct fuel; simpl; rewrite Z0; reflexivity.
    - destruct fuel as [|fuel]; [lia|]. simpl. destruct (m_stack _ _ _ m) eqn:K; [congruence|].
      rewrite E. destruct ((0 <? z) && (z <? Z.of_nat (m_n _ _ _ m1)))%Z eqn:O.
      + right. apply andb_true_iff in O. destruct O as [O1 O2]. apply Z.ltb_lt in O1, O2.
        split; auto. exists m1, k. repeat split; auto; lia.
      + destruct (IH Z0 fuel z) as [R|[Zp [m3 [j [R1 [R2 [R3 [R4 R5]]]]]]]]; [lia|auto|].
        right. split; auto. exists m3, j. repeat split; auto; lia.
  Qed.
  Lemma mloop_zero : forall h m k m', steps h m k m' -> m_stack _ _ _ m' = [] ->
    forall fuel, k <= fuel -> mloop fuel h 0 m = Some (Finished m').
  Proof.
    intros h m k m' S E fuel L. destruct (mloop_overflow h m k m' S E fuel 0%Z L) as [R|[Z0 _]]; auto. lia.
  Qed.

  (** A finished loop is a sequence of steps. *)
  Lemma mloop_steps : forall h fuel m m', mloop fuel h 0 m = Some (Finished m') ->
    exists k, k <= fuel /\ steps h m k m' /\ m_stack _ _ _ m' = [].
  Proof.
    induction fuel as [|fuel IH]; simpl; intros m m' E.
    - destruct (m_stack _ _ _ m) eqn:K; [|discriminate]. inversion E; subst. exists 0. repeat split; auto. constructor.
    - destruct (m_stack _ _ _ m) eqn:K.
      + inversion E; subst. exists 0. repeat split; auto; [lia|constructor].
      + destruct (mstep h m) as [m1|] eqn:S1; [|discriminate].
        destruct (IH _ _ E) as [k [L [S2 Z0]]]. exists (S k). repeat split; auto; [lia|].
        econstructor; eauto. rewrite K. discriminate.
  Qed.

  (** C03: where the work is split makes no difference. *)
  Lemma spawn_same : forall fuel h v z t bs, serialize fuel h v = Some (None, t, bs) ->
    exists meta, serialize_with_spawn fuel h v z = Some (meta, t, bs).
  Proof.
    intros fuel h v z t bs. unfold SerModel.serialize, SerModel.serialize_with_spawn.
    destruct (start P C H B leaf_head leaf_bufs h v) as [[o|m]|]; [intros E; inversion E; eauto| |discriminate].
    destruct (mloop fuel h 0 m) as [[m'|m']|] eqn:E; [|discriminate|discriminate].
    intros R. destruct (mloop_steps _ _ _ _ E) as [k [L [S Z0]]].
    assert (Q : exists n, result_of P H B false m' = Some (n, t, bs)) by eauto. destruct Q as [n Q].
    unfold result_of in *. destruct (m_ser _ _ _ m') as [t'|] eqn:T1; [|discriminate].
    destruct (mloop_overflow _ _ _ _ S Z0 fuel z L) as [R1|[_ [m2 [j [R1 [R2 [R3 [_ R4]]]]]]]]; rewrite R1.
    - rewrite T1. inversion R; subst. eauto.
    - rewrite (mloop_zero _ _ _ _ R2 Z0 fuel); [|lia]. rewrite T1. inversion R; subst. eauto.
  Qed.

  Lemma serialize_ser : forall f h a t s bs, ser f h s0 a = Some (t, s, bs) ->
    exists k, forall fuel, k <= fuel -> serialize fuel h (VR a) = Some (None, t, bs).
  Proof.
    intros f h a t s bs E. destruct f as [|f]; [discriminate|]. simpl in E. unfold SerModel.serialize, start.
    destruct (serial_single h s0 a) as [[[hd [bs1|subs1]] s1]|] eqn:SS; [| |discriminate].
    - inversion E; subst. exists 0. reflexivity.
    - destruct (sers (ser f h) s1 subs1) as [[[ts s2] bs2]|] eqn:E1; [|discriminate]. inversion E; subst.
      destruct subs1 as [|b subs1].
      + simpl in E1. inversion E1; subst. exists 0. reflexivity.
      + destruct (run_top h f hd _ _ _ _ _ E1) as [k [m' [S1 [S2 [S3 [S4 S5]]]]]].
        exists k. intros fuel L. rewrite (mloop_zero _ _ _ _ S1 S2 fuel L). unfold result_of. rewrite S3, S4.
        reflexivity.
  Qed.

  (** *** Deserializing *)

  Definition dess (bufs : list B) (f : dst -> nat -> tree -> dres (dval * dst * nat)) :=
    fix go (t : dst) (pos : nat) (l : list tree) : dres (list dval * dst * nat) :=
      match l with
      | [] => DOk ([], t, pos)
      | tr :: l' =>
          match f t pos tr with
          | DErr e => DErr e
          | DOk (w, t1, p1) =>
              match go t1 p1 l' with
              | DErr e => DErr e
              | DOk (ws, t2, p2) => DOk (w :: ws, t2, p2)
              end
          end
      end.

  Fixpoint des (bufs : list B) (t : dst) (pos : nat) (tr : tree) {struct tr} : dres (dval * dst * nat) :=
    match tr with T hd subs =>
      if is_leaf P H tr then
        match deserial_single t hd [] (firstn (num_bufs P H hd) (skipn pos bufs)) with
        | DErr e => DErr e
        | DOk (w, t') => DOk (w, t', pos + num_bufs P H hd)
        end
      else
        match (fix go (t : dst) (pos : nat) (l : list tree) : dres (list dval * dst * nat) :=
                 match l with
                 | [] => DOk ([], t, pos)
                 | tr :: l' =>
                     match des bufs t pos tr with
                     | DErr e => DErr e
                     | DOk (w, t1, p1) =>
                         match go t1 p1 l' with
                         | DErr e => DErr e
                         | DOk (ws, t2, p2) => DOk (w :: ws, t2, p2)
                         end
                     end
                 end) t pos subs with
        | DErr e => DErr e
        | DOk (ws, t1, p1) =>
            match deserial_single t1 hd ws [] with
            | DErr e => DErr e
            | DOk (w, t2) => DOk (w, t2, p1)
            end
        end
    end.

  Lemma des_eq : forall bufs t pos hd subs, des bufs t pos (T hd subs) =
      if is_leaf P H (T hd subs) then
        match deserial_single t hd [] (firstn (num_bufs P H hd) (skipn pos bufs)) with
        | DErr e => DErr e
        | DOk (w, t') => DOk (w, t', pos + num_bufs P H hd)
        end
      else
        match dess bufs (des bufs) t pos subs with
        | DErr e => DErr e
        | DOk (ws, t1, p1) =>
            match deserial_single t1 hd ws [] with
            | DErr e => DErr e
            | DOk (w, t2) => DOk (w, t2, p1)
            end
        end.
  Proof. reflexivity. Qed.

  Section TreeInd.
    Variable Q : tree -> Prop.
    Hypothesis HT : forall hd subs, Forall Q subs -> Q (T hd subs).
    Fixpoint tree_ind' (t : tree) : Q t :=
      match t with T hd subs =>
        HT hd subs ((fix go l : Forall Q l :=
          match l with [] => Forall_nil Q | x :: l' => Forall_cons x (tree_ind' x) (go l') end) subs)
      end.
  End TreeInd.

  Inductive dsteps (bufs : list B) : dmach -> dmach -> Prop :=
  | dsteps0 : forall q, dsteps bufs q q
  | dstepsS : forall q q1 q2, q_stack _ _ _ q <> [] -> dstep bufs q = DOk q1 -> dsteps bufs q1 q2 ->
      dsteps bufs q q2.
  Lemma dsteps_trans : forall b q1 q2 q3, dsteps b q1 q2 -> dsteps b q2 q3 -> dsteps b q1 q3.
  Proof. induction 1; simpl; intros; auto. econstructor; eauto. Qed.

  (** [q] leads to the failure [e]. *)
  Definition dfails (bufs : list B) (q : dmach) (e : derror) : Prop :=
    exists q1, dsteps bufs q q1 /\ q_stack _ _ _ q1 <> [] /\ dstep bufs q1 = DErr e.
  Lemma dfails_trans : forall b q1 q2 e, dsteps b q1 q2 -> dfails b q2 e -> dfails b q1 e.
  Proof. intros b q1 q2 e S [q [S1 R]]. exists q. split; auto. eapply dsteps_trans; eauto. Qed.

  Definition dpend (it : ditem P H) (x : option dval) : list dval :=
    match x with Some w => di_done _ _ it ++ [w] | None => di_done _ _ it end.
  Definition dat (q : dmach) (hd : head P H) (subs : list tree) (dn : list dval) (rest : list (ditem P H))
      (t : dst) (pos : nat) : Prop :=
    exists it, q_stack _ _ _ q = it :: rest /\ di_head _ _ it = hd /\ di_subs _ _ it = subs /\
      dpend it (q_last _ _ _ q) = dn /\ q_t _ _ _ q = t /\ q_pos _ _ _ q = pos.

  Definition drun (bufs : list B) (tr : tree) : Prop :=
    forall q hd subs dn rest t pos, dat q hd subs dn rest t pos -> nth_error subs (length dn) = Some tr ->
      match des bufs t pos tr with
      | DOk (w, t', pos') => exists q', dsteps bufs q q' /\ dat q' hd subs (dn ++ [w]) rest t' pos'
      | DErr e => dfails bufs q e
      end.

  Lemma drun_subs : forall bufs l, Forall (drun bufs) l ->
    forall q hd pre dn rest t pos, dat q hd (pre ++ l) dn rest t pos -> length dn = length pre ->
      match dess bufs (des bufs) t pos l with
      | DOk (ws, t', pos') => exists q', dsteps bufs q q' /\ dat q' hd (pre ++ l) (dn ++ ws) rest t' pos'
      | DErr e => dfails bufs q e
      end.
  Proof.
    intros bufs. induction l as [|tr l IH]; intros F q hd pre dn rest t pos A L; simpl.
    - exists q. split; [constructor|]. rewrite !app_nil_r in *. exact A.
    - inversion F as [|? ? F1 F2]; subst. specialize (F1 _ _ _ _ _ _ _ A).
      assert (N : nth_error (pre ++ tr :: l) (length dn) = Some tr).
      { rewrite nth_error_app2; [|lia]. rewrite L, Nat.sub_diag. reflexivity. }
      specialize (F1 N). destruct (des bufs t pos tr) as [[[w t1] p1]|e] eqn:D; [|exact F1].
      destruct F1 as [q1 [S1 A1]].
      replace (pre ++ tr :: l) with ((pre ++ [tr]) ++ l) in * by (rewrite <- app_assoc; reflexivity).
      specialize (IH F2 _ _ _ _ _ _ _ A1). rewrite !app_length in IH. simpl in IH.
      specialize (IH ltac:(lia)).
      destruct (dess bufs (des bufs) t1 p1 l) as [[[ws t2] p2]|e].
      + destruct IH as [q2 [S2 A2]]. exists q2. split; [eapply dsteps_trans; eauto|].
        rewrite <- !app_assoc in *. exact A2.
      + eapply dfails_trans; eauto.
  Qed.

  Lemma dess_length : forall bufs f l t pos ws t' p', dess bufs f t pos l = DOk (ws, t', p') -> length ws = length l.
  Proof.
    induction l as [|a l IH]; simpl; intros t pos ws t' p' E.
    - inversion E. reflexivity.
    - destruct (f t pos a) as [[[w t1] p1]|]; [|discriminate].
      destruct (dess bufs f t1 p1 l) as [[[ws2 t2] p2]|] eqn:E2; [|discriminate]. inversion E. simpl. f_equal. eauto.
  Qed.

  Lemma drun_all : forall bufs tr, drun bufs tr.
  Proof.
    intros bufs. induction tr as [hd1 subs1 IH] using tree_ind'.
    intros q hd subs dn rest t pos A N. rewrite des_eq.
    destruct A as [it [A1 [A2 [A3 [A4 [A5 A6]]]]]].
    destruct (is_leaf P H (T hd1 subs1)) eqn:L.
    - destruct (deserial_single t hd1 [] (firstn (num_bufs P H hd1) (skipn pos bufs))) as [[w t']|e] eqn:DS.
      + eexists. split.
        { econstructor; [rewrite A1; discriminate| |constructor].
          unfold SerModel.dstep. rewrite A1. fold (dpend it (q_last _ _ _ q)). rewrite A4, A3, N, L, A5, A6, DS.
          reflexivity. }
        eexists. simpl. split; [reflexivity|]. simpl. unfold dpend. simpl. subst. auto 10.
      + exists q. split; [constructor|]. split; [rewrite A1; discriminate|].
        unfold SerModel.dstep. rewrite A1. fold (dpend it (q_last _ _ _ q)). rewrite A4, A3, N, L, A5, A6, DS.
        reflexivity.
    - set (it' := {| di_head := di_head _ _ it; di_subs := di_subs _ _ it; di_done := dn |}).
      set (q1 := {| q_stack := {| di_head := hd1; di_subs := subs1; di_done := [] |} :: it' :: rest;
                    q_last := None; q_t := t; q_pos := pos |}).
      assert (S1 : dstep bufs q = DOk q1).
      { unfold SerModel.dstep. rewrite A1. fold (dpend it (q_last _ _ _ q)). rewrite A4, A3, N, L.
        unfold q1, it'. rewrite A3. subst. reflexivity. }
      assert (B1 : dat q1 hd1 ([] ++ subs1) [] (it' :: rest) t pos).
      { eexists. simpl. split; [reflexivity|]. repeat split. }
      pose proof (drun_subs bufs subs1 IH _ _ _ _ _ _ _ B1 eq_refl) as R.
      destruct (dess bufs (des bufs) t pos subs1) as [[[ws t1] p1]|e] eqn:DD.
      + destruct R as [q2 [S2 B2]]. destruct B2 as [it2 [E1 [E2 [E3 [E4 [E5 E6]]]]]]. simpl in *.
        assert (SQ : dsteps bufs q q2) by (econstructor; eauto; rewrite A1; discriminate).
        assert (ST : dstep bufs q2 = match deserial_single t1 hd1 ws [] with
             | DErr e => DErr e
             | DOk (w, t') => DOk {| q_stack := it' :: rest; q_last := Some w; q_t := t'; q_pos := p1 |} end).
        { unfold SerModel.dstep. rewrite E1. fold (dpend it2 (q_last _ _ _ q2)). rewrite E4, E3.
          rewrite (dess_length _ _ _ _ _ _ _ _ DD), nth_error_len, E2, E5, E6. reflexivity. }
        destruct (deserial_single t1 hd1 ws []) as [[w t2]|e].
        * eexists. split.
          { eapply dsteps_trans; [exact SQ|]. econstructor; [rewrite E1; discriminate|exact ST|constructor]. }
          eexists. simpl. split; [reflexivity|]. simpl. unfold dpend. simpl. subst. auto 10.
        * exists q2. split; auto. split; auto. rewrite E1. discriminate.
      + eapply dfails_trans; [|exact R]. econstructor; [rewrite A1; discriminate|exact S1|constructor].
  Qed.

  Lemma dloop_steps : forall bufs q q', dsteps bufs q q' -> q_stack _ _ _ q' = [] ->
    exists k, forall fuel, k <= fuel -> dloop fuel bufs q = Some (DOk q').
  Proof.
    induction 1 as [q|q q1 q2 N E St IH]; intros Z0.
    - exists 0. intros fuel _. destruct fuel; simpl; rewrite Z0; reflexivity.
    - destruct (IH Z0) as [k K]. exists (S k). intros fuel L. destruct fuel as [|fuel]; [lia|]. simpl.
      destruct (q_stack _ _ _ q); [congruence|]. rewrite E. apply K. lia.
  Qed.
  Lemma dloop_fails : forall bufs q e, dfails bufs q e ->
    exists k, forall fuel, k <= fuel -> dloop fuel bufs q = Some (DErr e).
  Proof.
    intros bufs q e [q1 [St [N E]]]. induction St as [q|q q2 q3 N1 E1 St IH].
    - exists 1. intros fuel L. destruct fuel as [|fuel]; [lia|]. simpl.
      destruct (q_stack _ _ _ q); [congruence|]. now rewrite E.
    - destruct (IH N E) as [k K]. exists (S k). intros fuel L. destruct fuel as [|fuel]; [lia|]. simpl.
      destruct (q_stack _ _ _ q); [congruence|]. rewrite E1. apply K. lia.
  Qed.

  Definition dtop (bufs : list B) (tr : tree) : dres (list (dobj P C) * dval * nat) :=
    match des bufs (t0 P C) 0 tr with
    | DErr e => DErr e
    | DOk (w, t, pos) => DOk (dh _ _ t, w, pos)
    end.

  (** If the buffers of a leaf header are all the buffers, or if it is no leaf,
      deserialize is the recursive function. *)
  Lemma deserialize_des : forall tr bufs,
    (is_leaf P H tr = true -> length bufs <= match tr with T hd _ => num_bufs P H hd end) ->
    exists k, forall fuel, k <= fuel -> deserialize fuel tr bufs = Some (dtop bufs tr).
  Proof.
    intros [hd subs] bufs LB. unfold SerModel.deserialize, dtop. rewrite des_eq.
    destruct (is_leaf P H (T hd subs)) eqn:L.
    - exists 0. intros fuel _. simpl skipn. rewrite firstn_all2 by auto.
      destruct (deserial_single (t0 P C) hd [] bufs) as [[w t]|e]; reflexivity.
    - set (q := {| q_stack := [{| di_head := hd; di_subs := subs; di_done := [] |}];
                   q_last := None; q_t := t0 P C; q_pos := 0 |}).
      assert (A : dat q hd ([] ++ subs) [] [] (t0 P C) 0).
      { eexists. simpl. split; [reflexivity|]. repeat split. }
      pose proof (drun_subs bufs subs (proj2 (Forall_forall _ _) (fun x _ => drun_all bufs x)) _ _ _ _ _ _ _ A eq_refl) as R.
      destruct (dess bufs (des bufs) (t0 P C) 0 subs) as [[[ws t1] p1]|e] eqn:DD.
      + destruct R as [q2 [S2 [it2 [E1 [E2 [E3 [E4 [E5 E6]]]]]]]]. simpl in *.
        assert (ST : dstep bufs q2 = match deserial_single t1 hd ws [] with
             | DErr e => DErr e
             | DOk (w, t') => DOk {| q_stack := []; q_last := Some w; q_t := t'; q_pos := p1 |} end).
        { unfold SerModel.dstep. rewrite E1. fold (dpend it2 (q_last _ _ _ q2)). rewrite E4, E3.
          rewrite (dess_length _ _ _ _ _ _ _ _ DD), nth_error_len, E2, E5, E6. reflexivity. }
        destruct (deserial_single t1 hd ws []) as [[w t2]|e].
        * destruct (dloop_steps bufs q {| q_stack := []; q_last := Some w; q_t := t2; q_pos := p1 |}) as [k K].
          { eapply dsteps_trans; [exact S2|]. econstructor; [rewrite E1; discriminate|exact ST|constructor]. }
          { reflexivity. }
          exists k. intros fuel F. rewrite (K fuel F). reflexivity.
        * destruct (dloop_fails bufs q e) as [k K].
          { exists q2. split; auto. split; auto. rewrite E1. discriminate. }
          exists k. intros fuel F. rewrite (K fuel F). reflexivity.
      + destruct (dloop_fails bufs q e R) as [k K]. exists k. intros fuel F. rewrite (K fuel F). reflexivity.
  Qed.
End M.
