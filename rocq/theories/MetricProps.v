(** * C46: metrics account for every value recorded while they are connected

    How to read.  A history lists the calls [init_metrics], [shutdown_metrics],
    [Metrics.counter(...)] etc. and [record], newest first, each with the report it
    made to the backend, if any.  The i-th metric is the i-th one created.

    [connects i o h]: the call [o], after the history [h], connects the i-th metric:
    the metric is created while metrics are initialised, or was created while they
    were not and this call initialises them.  [since i h]: kind, connection time and
    backend of the last connection, and the values recorded since, with their times.
    [emitted i h]: the reports since.

    What they must be is given by [Reports]:
    - a counter reports, at each call, the total of the values so far;
    - a gauge reports each value;
    - for a histogram, the values are cut into consecutive groups; a group ends when
      it has 2000 values, or one second after the last report, not earlier; the report
      is the group's average;
    - for a meter, likewise, a group ends when its total is 2000 or after one second;
      the report is the total divided by the time in seconds (at least a nanosecond). *)
From Coq Require Import List Bool Arith ZArith QArith Ascii Lia.
From Verif Require Import MetricModel.
Import ListNotations.
Open Scope Z_scope.

(** ** Specification *)
Definition history := list (op * option report).

(** Metrics are initialised *)
Fixpoint up (h : history) : bool :=
  match h with
  | [] => false
  | (Init _ _, _) :: _ => true
  | (Shutdown, _) :: _ => false
  | _ :: h => up h
  end.
(** ... with this backend *)
Fixpoint backend_of (h : history) : backend :=
  match h with
  | [] => Console
  | (Init b _, _) :: h => if up h then backend_of h else b
  | _ :: h => backend_of h
  end.
(** The metrics created, oldest first: name, kind, and whether they were created
    before initialisation *)
Fixpoint news (h : history) : list (text * kind * bool) :=
  match h with
  | [] => []
  | (New n k _, _) :: h => news h ++ [(n, k, negb (up h))]
  | _ :: h => news h
  end.

Definition connects (i : nat) (o : op) (h : history) : option (kind * Z * backend) :=
  match o with
  | New n k now => if up h && (i =? length (news h))%nat then Some (k, now, backend_of h) else None
  | Init b now =>
      if up h then None
      else match nth_error (news h) i with
           | Some (_, k, true) => Some (k, now, b)
           | _ => None
           end
  | _ => None
  end.

(** A value and the time of its recording *)
Notation sample := (Z * Z)%type.
Fixpoint since (i : nat) (h : history) : option (kind * Z * backend * list sample) :=
  match h with
  | [] => None
  | (o, _) :: h =>
      match connects i o h with
      | Some c => Some (c, [])
      | None =>
          match o, since i h with
          | Record j v now _, Some (c, rs) => Some (c, if (j =? i)%nat then rs ++ [(v, now)] else rs)
          | _, x => x
          end
      end
  end.
Fixpoint emitted (i : nat) (h : history) : list Q :=
  match h with
  | [] => []
  | (o, r) :: h =>
      match connects i o h with
      | Some _ => []
      | None =>
          match o, r with
          | Record j _ _ _, Some (q, _) => if (j =? i)%nat then emitted i h ++ [q] else emitted i h
          | _, _ => emitted i h
          end
      end
  end.

Definition total (rs : list sample) : Z := fold_right Z.add 0 (map fst rs).
Definition end_time (t : Z) (rs : list sample) : Z := last (map snd rs) t.

(** Values cut into groups: [ends t g] says that the group [g], begun at time [t],
    must be reported; [report_of t g q] what is reported. *)
Section Groups.
  Variable ends : Z -> list sample -> Prop.
  Variable report_of : Z -> list sample -> Q -> Prop.
  Inductive grouped : Z -> list sample -> list Q -> Prop :=
  | pending t rest : (forall p x q, rest = p ++ x :: q -> ~ ends t (p ++ [x])) -> grouped t rest []
  | reported t g x rest q qs :
      (forall p y z, g = p ++ y :: z -> ~ ends t (p ++ [y])) ->
      ends t (g ++ [x]) -> report_of t (g ++ [x]) q ->
      grouped (snd x) rest qs ->
      grouped t (g ++ x :: rest) (q :: qs).
End Groups.

Definition histogram_ends (t : Z) (g : list sample) : Prop :=
  (2000 <= length g)%nat \/ t + 1000000000 <= end_time t g.
Definition histogram_report (_ : Z) (g : list sample) (q : Q) : Prop :=
  (q == inject_Z (total g) / inject_Z (Z.of_nat (length g)))%Q.
Definition meter_ends (t : Z) (g : list sample) : Prop :=
  2000 <= total g \/ t + 1000000000 <= end_time t g.
Definition meter_report (t : Z) (g : list sample) (q : Q) : Prop :=
  (q == inject_Z (total g) / (inject_Z (Z.max (end_time t g - t) 1) / inject_Z 1000000000))%Q.

Definition Reports (k : kind) (t : Z) (rs : list sample) (qs : list Q) : Prop :=
  match k with
  | Counter => qs = map (fun n => inject_Z (total (firstn n rs))) (seq 1 (length rs))
  | Gauge => qs = map inject_Z (map fst rs)
  | Histogram => grouped histogram_ends histogram_report t rs qs
  | Meter => grouped meter_ends meter_report t rs qs
  end.

(** ** One metric alone *)
Fixpoint solo (m : metric) (rs : list sample) : metric * list Q :=
  match rs with
  | [] => (m, [])
  | (v, now) :: rs =>
      let (m1, r) := record m v now in
      let (m2, qs) := solo m1 rs in
      (m2, match r with Some q => q :: qs | None => qs end)
  end.

Lemma solo_snoc m rs v now : solo m (rs ++ [(v, now)]) =
  (fst (record (fst (solo m rs)) v now),
   snd (solo m rs) ++ match snd (record (fst (solo m rs)) v now) with Some q => [q] | None => [] end).
Proof.
  revert m. induction rs as [|[v0 n0] rs IH]; intros m; cbn [app solo].
  - cbn [fst snd]. destruct (record m v now) as [m1 r]. destruct r; reflexivity.
  - destruct (record m v0 n0) as [m1 r]. rewrite IH. destruct (solo m1 rs) as [m2 qs]. cbn [fst snd].
    destruct (record m2 v now) as [m3 r3]. cbn [fst snd]. destruct r; reflexivity.
Qed.

Lemma snoc_cases {A} (z : list A) : z = [] \/ exists z' w, z = z' ++ [w].
Proof.
  destruct z as [|a z]; [now left|]. right. destruct (@exists_last _ (a :: z)) as (z' & w & E); [discriminate|eauto].
Qed.
Lemma total_snoc g x : total (g ++ [x]) = total g + fst x.
Proof. unfold total. induction g as [|y g IH]; cbn in *; lia. Qed.
Lemma end_snoc t g x : end_time t (g ++ [x]) = snd x.
Proof. unfold end_time. rewrite map_app. cbn [map]. apply last_last. Qed.
Lemma sum_acc l : forall a, fold_left Z.add l a = a + fold_right Z.add 0 l.
Proof. induction l as [|x l IH]; intros a; cbn; [lia|]. rewrite IH. lia. Qed.

Lemma counter_ok rs : forall c d t, exists m,
  solo (mkM Counter c d t) rs = (m, map (fun n => inject_Z (c + total (firstn n rs))) (seq 1 (length rs))).
Proof.
  induction rs as [|[v now] rs IH]; intros c d t; [eexists; reflexivity|].
  cbn [solo record mkind count data last_time]. destruct (IH (c + v) d t) as (m & E). rewrite E.
  exists m. f_equal. cbn [length seq map]. f_equal.
  - unfold total. cbn. f_equal. lia.
  - rewrite <- (seq_shift (length rs) 1), map_map. apply map_ext. intros n. cbn [firstn]. unfold total. cbn [map fold_right fst]. f_equal. lia.
Qed.
Lemma gauge_ok rs : forall m, mkind m = Gauge -> solo m rs = (m, map inject_Z (map fst rs)).
Proof.
  induction rs as [|[v now] rs IH]; intros m K; [reflexivity|]. cbn [solo]. unfold record. rewrite K.
  rewrite IH by auto. reflexivity.
Qed.

(** The group so far is [g]; [d] are its values. *)
Lemma histogram_ok rs : forall g c t,
  (forall p y z, g = p ++ y :: z -> ~ histogram_ends t (p ++ [y])) ->
  grouped histogram_ends histogram_report t (g ++ rs) (snd (solo (mkM Histogram c (map fst g) t) rs)).
Proof.
  induction rs as [|[v now] rs IH]; intros g c t NE.
  - cbn. rewrite app_nil_r. constructor. exact NE.
  - cbn [solo record mkind count data last_time].
    assert (L : length (map fst g ++ [v]) = length (g ++ [(v, now)])) by (rewrite !app_length, map_length; reflexivity).
    assert (ES : end_time t (g ++ [(v, now)]) = now) by apply end_snoc.
    destruct ((threshold <=? Z.of_nat (length (map fst g ++ [v]))) || (interval <=? now - t)) eqn:C.
    + specialize (IH [] c now). cbn [map app] in IH.
      destruct (solo (mkM Histogram c [] now) rs) as [m2 qs]. cbn [snd] in *.
      apply reported; auto.
      * unfold histogram_ends. rewrite ES, <- L. apply orb_true_iff in C. unfold threshold, interval, second in C.
        destruct C as [C|C]; apply Z.leb_le in C; lia.
      * unfold histogram_report. rewrite L. unfold sum.
        assert (T : fold_left Z.add (map fst g ++ [v]) 0 = total (g ++ [(v, now)])).
        { rewrite sum_acc. unfold total. rewrite map_app. cbn [map fst]. lia. }
        rewrite T. set (n := length (g ++ [(v, now)])). assert (N : (0 < n)%nat) by (unfold n; rewrite app_length; cbn; lia).
        rewrite Qmake_Qdiv. unfold Qdiv. replace (Zpos (Pos.of_nat n)) with (Z.of_nat n); [reflexivity|].
        rewrite <- (Nat2Pos.id n) at 1 by lia. apply positive_nat_Z.
      * apply IH. intros p y z E. destruct p; discriminate.
    + specialize (IH (g ++ [(v, now)]) c t). rewrite map_app in IH. cbn [map fst] in IH.
      destruct (solo (mkM Histogram c (map fst g ++ [v]) t) rs) as [m2 qs] eqn:ESolo. cbn [snd] in *.
      rewrite <- app_assoc in IH. cbn [app] in IH. apply IH.
      intros p y z E. destruct (snoc_cases z) as [->|(z' & w & ->)].
      * apply app_inj_tail in E. destruct E as [<- <-]. unfold histogram_ends. rewrite ES, <- L.
        apply orb_false_iff in C. unfold threshold, interval, second in C. destruct C as [C1 C2]. apply Z.leb_gt in C1, C2. lia.
      * rewrite app_comm_cons, app_assoc in E.
        apply app_inj_tail in E. destruct E as [E _]. eapply NE; eauto.
Qed.

Lemma meter_ok rs : forall g d t,
  (forall p y z, g = p ++ y :: z -> ~ meter_ends t (p ++ [y])) ->
  grouped meter_ends meter_report t (g ++ rs) (snd (solo (mkM Meter (total g) d t) rs)).
Proof.
  induction rs as [|[v now] rs IH]; intros g d t NE.
  - cbn. rewrite app_nil_r. constructor. exact NE.
  - cbn [solo record mkind count data last_time].
    assert (T : total (g ++ [(v, now)]) = total g + v) by apply total_snoc.
    assert (ES : end_time t (g ++ [(v, now)]) = now) by apply end_snoc.
    destruct ((threshold <=? total g + v) || (interval <=? Z.max (now - t) smallest_past)) eqn:C.
    + specialize (IH [] d now). unfold total at 1 in IH. cbn [map app fold_right] in IH.
      destruct (solo (mkM Meter 0 d now) rs) as [m2 qs]. cbn [snd] in *.
      apply reported; auto.
      * unfold meter_ends. rewrite ES, T. apply orb_true_iff in C. unfold threshold, interval, second, smallest_past in C.
        destruct C as [C|C]; apply Z.leb_le in C; lia.
      * unfold meter_report. rewrite ES, T. unfold smallest_past. set (x := Z.max (now - t) 1). assert (X : 1 <= x) by (unfold x; lia).
        rewrite Qmake_Qdiv. rewrite Z2Pos.id by lia. rewrite inject_Z_mult. unfold second.
        field. intros F; unfold Qeq in F; cbn in F; lia.
      * apply IH. intros p y z E. destruct p; discriminate.
    + specialize (IH (g ++ [(v, now)]) d t). rewrite T in IH.
      destruct (solo (mkM Meter (total g + v) d t) rs) as [m2 qs] eqn:ESolo. cbn [snd] in *.
      rewrite <- app_assoc in IH. cbn [app] in IH. apply IH.
      intros p y z E. destruct (snoc_cases z) as [->|(z' & w & ->)].
      * apply app_inj_tail in E. destruct E as [<- <-]. unfold meter_ends. rewrite ES, T.
        apply orb_false_iff in C. unfold threshold, interval, second, smallest_past in C.
        destruct C as [C1 C2]. apply Z.leb_gt in C1, C2. lia.
      * rewrite app_comm_cons, app_assoc in E.
        apply app_inj_tail in E. destruct E as [E _]. eapply NE; eauto.
Qed.

Lemma solo_ok k t rs : Reports k t rs (snd (solo (fresh k t) rs)).
Proof.
  destruct k; cbn [Reports]; unfold fresh.
  - destruct (counter_ok rs 0 [] t) as (m & E). rewrite E. reflexivity.
  - rewrite gauge_ok by auto. reflexivity.
  - apply (meter_ok rs [] [] t). intros p y z E. destruct p; discriminate.
  - apply (histogram_ok rs [] 0 t). intros p y z E. destruct p; discriminate.
Qed.

(** ** All metrics *)
Definition live (c : cell) : bool := match target c with Some (_, out) => out | None => false end.

Record Inv (s : sys) (h : history) : Prop := mkInv {
  inv_init : init s = up h;
  inv_back : up h = true -> back s = backend_of h;
  inv_cells : map (fun c => (cname c, ckind c, wrapper c)) (cells s) = news h;
  inv_none : forall i c, nth_error (cells s) i = Some c -> target c = None -> since i h = None /\ emitted i h = [];
  inv_some : forall i c m out, nth_error (cells s) i = Some c -> target c = Some (m, out) ->
    exists t b rs, since i h = Some (ckind c, t, b, rs) /\ fst (solo (fresh (ckind c) t) rs) = m /\
      emitted i h = (if out then snd (solo (fresh (ckind c) t) rs) else []) /\
      (b = Console -> out = true);
  inv_far : forall i, nth_error (cells s) i = None -> since i h = None /\ emitted i h = [];
}.

Lemma connect_ok b cs now : forall rs rs' cs', connect b rs cs now = (rs', cs') ->
  map (fun c => (cname c, ckind c, wrapper c)) cs' = map (fun c => (cname c, ckind c, wrapper c)) cs /\
  forall i, match nth_error cs i, nth_error cs' i with
    | Some c, Some c' =>
        if wrapper c then exists out, c' = mkC (cname c) (ckind c) true (Some (fresh (ckind c) now, out)) /\ (b = Console -> out = true)
        else c' = c
    | None, None => True
    | _, _ => False
    end.
Proof.
  induction cs as [|c cs IH]; intros rs rs' cs' E; cbn [connect] in E.
  - inversion E; subst. split; auto. intros [|i]; exact I.
  - destruct (wrapper c) eqn:W.
    + destruct (construct b rs (cname c) (ckind c) now) as [rs1 t] eqn:CT. destruct (connect b rs1 cs now) as [rs2 cs2] eqn:CN.
      inversion E; subst. destruct (IH _ _ _ CN) as [M N]. split.
      * cbn [map cname ckind wrapper]. now rewrite M, W.
      * intros [|i]; cbn [nth_error]; [|apply N]. rewrite W. unfold construct in CT.
        destruct b; [inversion CT; subst; eauto|].
        destruct (existsb _ _); inversion CT; subst; eexists; (split; [reflexivity|discriminate]).
    + destruct (connect b rs cs now) as [rs2 cs2] eqn:CN. inversion E; subst. destruct (IH _ _ _ CN) as [M N]. split.
      * cbn [map]. now rewrite M.
      * intros [|i]; cbn [nth_error]; [|apply N]. now rewrite W.
Qed.

Lemma put_nth {A} (l : list A) : forall i j x, nth_error (put i x l) j =
  if (i =? j)%nat then match nth_error l i with Some _ => Some x | None => None end else nth_error l j.
Proof.
  induction l as [|y l IH]; intros [|i] [|j] x; cbn [put nth_error Nat.eqb]; auto.
  - now destruct (i =? j)%nat.
Qed.
Lemma put_map {A B} (f : A -> B) (l : list A) : forall i x y, nth_error l i = Some y -> f x = f y -> map f (put i x l) = map f l.
Proof.
  induction l as [|z l IH]; intros [|i] x y N E; cbn in *; try discriminate.
  - inversion N; subst. now rewrite E.
  - f_equal. eauto.
Qed.

Lemma nth_news s h i : map (fun c => (cname c, ckind c, wrapper c)) (cells s) = news h ->
  nth_error (news h) i = match nth_error (cells s) i with Some c => Some (cname c, ckind c, wrapper c) | None => None end.
Proof. intros <-. rewrite nth_error_map. destruct (nth_error (cells s) i); reflexivity. Qed.

Lemma inv_reach s h : reach s h -> Inv s h.
Proof.
  induction 1 as [|s h o s' r R IH ST].
  - constructor; auto; try discriminate; intros [|i]; discriminate.
  - destruct IH as [II IB IC IN IS IF]. destruct o as [b now| |n k now|i v now t]; cbn [step] in ST.
    + (* Init *)
      destruct (init s) eqn:IE.
      * inversion ST; subst.
        constructor; cbn [up backend_of news since emitted connects]; rewrite <- ?II; auto.
      * destruct (connect b (regs s) (cells s) now) as [rs cs] eqn:CN. inversion ST; subst. clear ST.
        destruct (connect_ok _ _ _ _ _ _ CN) as [M N].
        assert (NN := fun i => nth_news s h i IC).
        constructor; cbn [up backend_of news since emitted connects init back cells regs]; rewrite <- ?II; auto.
        -- now rewrite M.
        -- intros i c E T. specialize (N i). rewrite NN. rewrite E in N. destruct (nth_error (cells s) i) as [c0|] eqn:E0; [|contradiction].
           destruct (wrapper c0); [destruct N as (out & -> & _); discriminate|]. subst. eapply IN; eauto.
        -- intros i c m out E T. specialize (N i). rewrite NN. rewrite E in N. destruct (nth_error (cells s) i) as [c0|] eqn:E0; [|contradiction].
           destruct (wrapper c0).
           ++ destruct N as (out' & -> & NC). cbn in T. inversion T; subst. cbn [ckind].
              eexists now, b, []. split; [reflexivity|]. split; [reflexivity|]. split; auto. now destruct out.
           ++ subst. eapply IS; eauto.
        -- intros i E. specialize (N i). rewrite NN. rewrite E in N. destruct (nth_error (cells s) i) as [c0|] eqn:E0; [contradiction|].
           apply IF; auto.
    + (* Shutdown *)
      inversion ST; subst. constructor; cbn [up backend_of news since emitted connects init back cells regs]; auto. discriminate.
    + (* New *)
      assert (LN : length (news h) = length (cells s)) by (rewrite <- IC; apply map_length).
      assert (FAR : nth_error (cells s) (length (cells s)) = None) by (apply nth_error_None; lia).
      assert (OLD : forall i c (x : cell), nth_error (cells s ++ [x]) i = Some c ->
        (i = length (cells s) /\ c = x) \/ (i <> length (cells s) /\ nth_error (cells s) i = Some c)).
      { intros i c x E. destruct (Nat.lt_ge_cases i (length (cells s))) as [L|L].
        - right. rewrite nth_error_app1 in E by lia. split; [lia|auto].
        - rewrite nth_error_app2 in E by lia. destruct (i - length (cells s))%nat as [|d] eqn:D; cbn in E.
          + inversion E; subst. left. split; [lia|auto].
          + now destruct d. }
      assert (GONE : forall i (x : cell), nth_error (cells s ++ [x]) i = None -> i <> length (cells s) /\ nth_error (cells s) i = None).
      { intros i x E. apply nth_error_None in E. rewrite app_length in E. cbn in E. split; [lia|]. apply nth_error_None. lia. }
      destruct (init s) eqn:IE.
      * destruct (construct (back s) (regs s) n k now) as [rs t] eqn:CT. inversion ST; subst. clear ST.
        assert (TT : exists out, t = (fresh k now, out) /\ (back s = Console -> out = true)).
        { unfold construct in CT. destruct (back s); [inversion CT; subst; eauto|].
          destruct (existsb _ _); inversion CT; subst; eexists; (split; [reflexivity|discriminate]). }
        destruct TT as (out & -> & TC). specialize (IB (eq_sym II)).
        constructor; cbn [up backend_of news since emitted connects init back cells regs]; rewrite <- ?II, ?LN; cbn [andb]; auto.
        -- rewrite map_app, IC. reflexivity.
        -- intros i c E T. apply OLD in E. destruct E as [[-> ->]|[NE E]]; [discriminate|].
           apply Nat.eqb_neq in NE. rewrite NE. eapply IN; eauto.
        -- intros i c m out' E T. apply OLD in E. destruct E as [[-> ->]|[NE E]].
           ++ cbn in T. inversion T; subst. rewrite Nat.eqb_refl. exists now, (backend_of h), []. cbn. repeat split; auto; [now destruct out'|].
              rewrite <- IB. auto.
           ++ apply Nat.eqb_neq in NE. rewrite NE. eapply IS; eauto.
        -- intros i E. apply GONE in E. destruct E as [NE E]. apply Nat.eqb_neq in NE. rewrite NE. auto.
      * inversion ST; subst. clear ST.
        constructor; cbn [up backend_of news since emitted connects init back cells regs]; rewrite <- ?II; cbn [andb]; auto.
        -- discriminate.
        -- rewrite map_app, IC. reflexivity.
        -- intros i c E T. apply OLD in E. destruct E as [[-> ->]|[NE E]]; [auto|]. eapply IN; eauto.
        -- intros i c m out' E T. apply OLD in E. destruct E as [[-> ->]|[NE E]]; [discriminate|]. eapply IS; eauto.
        -- intros i E. apply GONE in E. destruct E as [NE E]. auto.
    + (* Record *)
      destruct (nth_error (cells s) i) as [[n k w [[m out]|]]|] eqn:E0.
      * destruct (record m v now) as [m' q] eqn:RC. inversion ST; subst. clear ST.
        constructor; cbn [up backend_of news since emitted connects init back cells regs]; auto.
        -- erewrite put_map; eauto.
        -- intros j c E T. rewrite put_nth in E. rewrite E0 in E. destruct (Nat.eqb_spec i j) as [<-|NE].
           ++ inversion E; subst. discriminate.
           ++ destruct (IN j c E T) as [-> ->]. destruct out; destruct q; auto.
        -- intros j c m0 out0 E T. rewrite put_nth in E. rewrite E0 in E. destruct (Nat.eqb_spec i j) as [<-|NE].
           ++ inversion E; subst. cbn in T. inversion T; subst. cbn [ckind].
              destruct (IS _ _ _ _ E0 eq_refl) as (t0 & b & rs & S & M & EM & C). cbn [ckind] in *. rewrite S.
              exists t0, b, (rs ++ [(v, now)]). split; auto. rewrite solo_snoc, M, RC. cbn [fst snd]. split; auto. split; auto.
              rewrite EM. destruct out0; auto. destruct q; auto. now rewrite app_nil_r.
           ++ destruct (IS _ _ _ _ E T) as (t0 & b & rs & S & M & EM & C). rewrite S. exists t0, b, rs. rewrite EM.
              split; auto. split; auto. split; auto. destruct out; destruct q; auto.
        -- intros j E. rewrite put_nth in E. rewrite E0 in E. destruct (Nat.eqb_spec i j) as [EQ|NE]; [subst j; discriminate E|].
           destruct (IF j E) as [-> ->]. destruct out; destruct q; auto.
      * inversion ST; subst. clear ST.
        assert (X := IN _ _ E0 eq_refl).
        constructor; cbn [up backend_of news since emitted connects init back cells regs]; auto.
        -- intros j c E T. destruct (IN j c E T) as [-> ->]. auto.
        -- intros j c m0 out0 E T. destruct (IS _ _ _ _ E T) as (t0 & b & rs & S & M & EM & C). rewrite S. exists t0, b, rs.
           destruct (Nat.eqb_spec i j) as [<-|NE]; auto. destruct X as [X _]. congruence.
        -- intros j E. destruct (IF j E) as [-> ->]. auto.
      * inversion ST; subst. clear ST. assert (X := IF _ E0).
        constructor; cbn [up backend_of news since emitted connects init back cells regs]; auto.
        -- intros j c E T. destruct (IN j c E T) as [-> ->]. auto.
        -- intros j c m0 out0 E T. destruct (IS _ _ _ _ E T) as (t0 & b & rs & S & M & EM & C). rewrite S. exists t0, b, rs.
           destruct (Nat.eqb_spec i j) as [<-|NE]; auto. destruct X as [X _]. congruence.
        -- intros j E. destruct (IF j E) as [-> ->]. auto.
Qed.

Lemma out_reports s h i k t b rs out : reach s h -> since i h = Some (k, t, b, rs) ->
  (forall c m o, nth_error (cells s) i = Some c -> target c = Some (m, o) -> o = out) ->
  (out = true -> Reports k t rs (emitted i h)) /\ (out = false -> emitted i h = []).
Proof.
  intros R S O. destruct (inv_reach _ _ R) as [_ _ _ IN IS IF].
  destruct (nth_error (cells s) i) as [c|] eqn:E; [|destruct (IF _ E); congruence].
  destruct (target c) as [[m o]|] eqn:T; [|destruct (IN _ _ E T); congruence].
  destruct (IS _ _ _ _ E T) as (t' & b' & rs' & S' & M & EM & C). rewrite S in S'. inversion S'; subst.
  rewrite EM. rewrite (O c _ o eq_refl T). split; intros ->; auto. apply solo_ok.
Qed.

(** *** Distinct prometheus names, no shutdown *)
Definition no_shutdown (h : history) : Prop := forall o r, In (o, r) h -> o <> Shutdown.
(** Two names clash if they differ at most by dots against colons (prometheus knows no dots). *)
Definition alike (c d : Ascii.ascii) : Prop :=
  c = d \/ (In c ["."; ":"]%char /\ In d ["."; ":"]%char).
Definition clash (n m : text) : Prop := Forall2 alike n m.
(** No metric was created whose name clashes with that of an earlier one. *)
Definition distinct_names (h : history) : Prop :=
  ForallOrdPairs (fun n m => ~ clash n m) (map (fun x => fst (fst x)) (news h)).

Definition distinct_norms (h : history) : Prop := NoDup (map (fun x => norm (fst (fst x))) (news h)).
Lemma clash_norm : forall n m, clash n m <-> norm n = norm m.
Proof.
  unfold clash, norm. induction n as [|c n IH]; intros [|d m]; cbn [map]; split; intros H; try discriminate; try (now inversion H); auto.
  - inversion H as [|? ? ? ? A B]; subst. apply IH in B. rewrite B. f_equal. destruct A as [->|[A B']]; [reflexivity|].
    cbn in A, B'. destruct A as [<-|[<-|[]]], B' as [<-|[<-|[]]]; reflexivity.
  - injection H as A B. constructor; [|now apply IH]. unfold alike. cbn [In].
    destruct (Ascii.eqb_spec c "."), (Ascii.eqb_spec d "."); subst; auto.
Qed.
Lemma distinct_norms_ok : forall h, distinct_names h -> distinct_norms h.
Proof.
  unfold distinct_names, distinct_norms. intros h. generalize (news h). induction l as [|x l IH]; cbn [map]; intros H; [constructor|].
  inversion H as [|? ? A B]; subst. constructor; [|auto]. intros X. apply in_map_iff in X. destruct X as (y & E & Y).
  rewrite Forall_forall in A. apply (A (fst (fst y))); [now apply (in_map (fun x => fst (fst x))) in Y|]. now apply clash_norm.
Qed.

Lemma text_eqb_eq a : forall b, text_eqb a b = true <-> a = b.
Proof.
  induction a as [|x a IH]; intros [|y b]; cbn; split; intros; auto; try discriminate.
  - apply andb_true_iff in H. destruct H as [H1 H2]. apply Ascii.eqb_eq in H1. apply IH in H2. congruence.
  - inversion H; subst. rewrite Ascii.eqb_refl. now apply IH.
Qed.
Lemma taken_spec n rs : existsb (text_eqb n) rs = true <-> In n rs.
Proof.
  rewrite existsb_exists. split.
  - intros (x & I & E). apply text_eqb_eq in E. now subst.
  - intros I. exists n. split; auto. now apply text_eqb_eq.
Qed.

Definition norms (cs : list cell) : list text := map (fun c => norm (cname c)) cs.
Definition all_out (cs : list cell) : Prop := forall c m o, In c cs -> target c = Some (m, o) -> o = true.
Definition none_connected (cs : list cell) : Prop := forall c, In c cs -> target c = None.

Lemma connect_out b now cs : forall rs rs' cs', connect b rs cs now = (rs', cs') ->
  NoDup (norms cs) -> (forall x, In x (norms cs) -> ~ In x rs) -> none_connected cs ->
  all_out cs' /\ (forall x, In x rs' -> In x rs \/ In x (norms cs)) /\ norms cs' = norms cs.
Proof.
  induction cs as [|c cs IH]; intros rs rs' cs' E ND DJ NC; cbn [connect] in E.
  - inversion E; subst. split; [intros ? ? ? []|]. auto.
  - unfold norms in ND. cbn [map] in ND. inversion ND as [|? ? NI ND']; subst. fold (norms cs) in NI, ND'.
    destruct (wrapper c) eqn:W.
    + destruct (construct b rs (cname c) (ckind c) now) as [rs1 t] eqn:CT. destruct (connect b rs1 cs now) as [rs2 cs2] eqn:CN.
      inversion E; subst. clear E.
      assert (X : snd t = true /\ (rs1 = rs \/ rs1 = norm (cname c) :: rs)).
      { unfold construct in CT. destruct b; [inversion CT; subst; auto|].
        destruct (existsb (text_eqb (norm (cname c))) rs) eqn:EX.
        - apply taken_spec in EX. elim (DJ (norm (cname c))); cbn; auto.
        - inversion CT; subst. auto. }
      destruct X as [TT RR]. destruct (IH _ _ _ CN ND') as (A & B & C).
      * intros x Ix J. destruct RR as [->| ->]; [apply (DJ x); cbn; auto|]. cbn [In] in J.
        destruct J as [J|J]; [subst; auto|]. apply (DJ x); cbn; auto.
      * intros c0 I0. apply NC; cbn; auto.
      * split; [|split].
        -- intros c0 m o [<-|I0] T; [cbn in T; inversion T; subst; auto|]. eapply A; eauto.
        -- intros x I0. apply B in I0. cbn [norms map In]. destruct RR as [->| ->]; cbn [In] in I0; tauto.
        -- unfold norms in *. cbn [map cname]. now rewrite C.
    + destruct (connect b rs cs now) as [rs2 cs2] eqn:CN. inversion E; subst. clear E.
      destruct (IH _ _ _ CN ND') as (A & B & C).
      * intros x Ix. apply DJ; cbn; auto.
      * intros c0 I0. apply NC; cbn; auto.
      * split; [|split].
        -- intros c0 m o [<-|I0] T; [rewrite (NC c) in T by (cbn; auto); discriminate|]. eapply A; eauto.
        -- intros x I0. apply B in I0. cbn [norms map In]. tauto.
        -- unfold norms in *. cbn [map cname]. now rewrite C.
Qed.

Lemma put_in {A} (l : list A) : forall i (x y : A), In y (put i x l) -> y = x \/ In y l.
Proof.
  induction l as [|z l IH]; intros [|i] x y I0; cbn in *; try tauto.
  - destruct I0; auto.
  - destruct I0 as [->|I0]; auto. apply IH in I0. tauto.
Qed.

Lemma NoDup_app_l {A} (a b : list A) : NoDup (a ++ b) -> NoDup a.
Proof.
  induction a as [|x a IH]; intros N; [constructor|]. inversion N; subst. constructor; auto.
  intros I0. apply H1. apply in_or_app. auto.
Qed.

Lemma inv_out s h : reach s h -> no_shutdown h -> distinct_norms h ->
  all_out (cells s) /\ (forall x, In x (regs s) -> In x (norms (cells s))) /\
  (up h = false -> none_connected (cells s) /\ regs s = []).
Proof.
  induction 1 as [|s h o s' r R IH ST]; intros NS DN.
  - repeat split; try (intros ? ? ? []); try (intros ? []); auto. 
  - assert (NS' : no_shutdown h) by (intros o' r' I0; apply (NS o' r'); cbn; auto).
    assert (DN' : distinct_norms h).
    { unfold distinct_norms in *. destruct o; auto. cbn [news] in DN. rewrite map_app in DN. now apply NoDup_app_l in DN. }
    destruct (IH NS' DN') as (AO & RG & NU). destruct (inv_reach _ _ R) as [II IB IC _ _ _].
    assert (NM : map (fun x => norm (fst (fst x))) (news h) = norms (cells s)).
    { rewrite <- IC, map_map. reflexivity. }
    destruct o as [b now| |n k now|i v now t]; cbn [step] in ST.
    + destruct (init s) eqn:IE.
      * inversion ST; subst. cbn [up]. split; auto. split; auto. discriminate.
      * destruct (connect b (regs s) (cells s) now) as [rs cs] eqn:CN. inversion ST; subst. clear ST.
        destruct (NU (eq_sym II)) as [NC RE]. rewrite RE in *.
        destruct (connect_out _ _ _ _ _ _ CN) as (A & B & C); auto.
        { unfold distinct_norms in DN'. now rewrite NM in DN'. }
        cbn [cells regs up]. split; auto. split; [|discriminate]. intros x I0. rewrite C. apply B in I0. destruct I0 as [[]|I0]; auto.
    + elim (NS Shutdown r); cbn; auto.
    + unfold distinct_norms in DN. cbn [news] in DN. rewrite map_app, NM in DN. cbn [map fst] in DN.
      destruct (init s) eqn:IE.
      * destruct (construct (back s) (regs s) n k now) as [rs t] eqn:CT. inversion ST; subst. clear ST.
        assert (NI : ~ In (norm n) (regs s)).
        { intros I0. apply RG in I0. apply NoDup_remove_2 in DN. apply DN. rewrite app_nil_r. auto. }
        assert (X : snd t = true /\ (rs = regs s \/ rs = norm n :: regs s)).
        { unfold construct in CT. destruct (back s); [inversion CT; subst; auto|].
          destruct (existsb (text_eqb (norm n)) (regs s)) eqn:EX; [apply taken_spec in EX; contradiction|].
          inversion CT; subst. auto. }
        destruct X as [TT RR]. cbn [cells regs up]. split; [|split].
        -- intros c m o I0 T. apply in_app_or in I0. destruct I0 as [I0|[<-|[]]]; [eapply AO; eauto|]. cbn in T. inversion T; subst; auto.
        -- intros x I0. unfold norms. rewrite map_app. apply in_or_app. destruct RR as [->| ->]; [left; now apply RG|].
           destruct I0 as [<-|I0]; [right; cbn; auto|left; now apply RG].
        -- congruence.
      * inversion ST; subst. clear ST. destruct (NU (eq_sym II)) as [NC RE]. cbn [cells regs up]. split; [|split].
        -- intros c m o I0 T. apply in_app_or in I0. destruct I0 as [I0|[<-|[]]]; [eapply AO; eauto|discriminate].
        -- rewrite RE. intros ? [].
        -- intros _. split; auto. intros c I0. apply in_app_or in I0. destruct I0 as [I0|[<-|[]]]; auto.
    + destruct (nth_error (cells s) i) as [[n k w [[m out]|]]|] eqn:E0; [|inversion ST; subst; auto|inversion ST; subst; auto].
      destruct (record m v now) as [m' q] eqn:RC. inversion ST; subst. clear ST. cbn [cells regs up].
      assert (IC0 := nth_error_In _ _ E0). split; [|split].
      * intros c m0 o I0 T. apply put_in in I0. destruct I0 as [->|I0]; [|eapply AO; eauto]. cbn in T. inversion T; subst. eapply AO; eauto. reflexivity.
      * unfold norms. erewrite put_map; eauto.
      * intros U. destruct (NU U) as [NC RE]. specialize (NC _ IC0). discriminate.
Qed.

(** ** The property *)

(** In full: every metric, with either backend, reports as it should. *)
Definition C46_claim : Prop := forall s h i k t b rs,
  reach s h -> since i h = Some (k, t, b, rs) -> Reports k t rs (emitted i h).

(** The console backend. *)
Theorem C46_console_reports_partial s h i k t rs :
  reach s h -> since i h = Some (k, t, Console, rs) -> Reports k t rs (emitted i h).
Proof.
  intros R S. destruct (inv_reach _ _ R) as [_ _ _ _ IS _]. refine (proj1 (out_reports _ _ _ _ _ _ _ true R S _) eq_refl).
  intros c m o E T. destruct (IS _ _ _ _ E T) as (t' & b' & rs' & S' & M & EM & C). rewrite S in S'. inversion S'; subst. auto.
Qed.

(** Either backend, as long as names differ (also after replacing [.] by [:]) and
    metrics are not shut down. *)
Theorem C46_distinct_names_reports_partial s h i k t b rs :
  reach s h -> no_shutdown h -> distinct_names h ->
  since i h = Some (k, t, b, rs) -> Reports k t rs (emitted i h).
Proof.
  intros R NS DN S. destruct (inv_out _ _ R NS (distinct_norms_ok _ DN)) as (AO & _).
  refine (proj1 (out_reports _ _ _ _ _ _ _ true R S _) eq_refl).
  intros c m o E T. eapply AO; eauto. eapply nth_error_In; eauto.
Qed.

(** Nothing is reported by a metric that is not connected. *)
Theorem C46_unconnected_is_silent s h i : reach s h -> since i h = None -> emitted i h = [].
Proof.
  intros R S. destruct (inv_reach _ _ R) as [_ _ _ IN IS IF].
  destruct (nth_error (cells s) i) as [c|] eqn:E; [|apply IF; auto].
  destruct (target c) as [[m o]|] eqn:T; [|eapply IN; eauto].
  destruct (IS _ _ _ _ E T) as (t' & b' & rs' & S' & _). congruence.
Qed.

(** A counter's last report is the total of all values since the connection. *)
Theorem C46_counter_total s h i t rs :
  reach s h -> since i h = Some (Counter, t, Console, rs) -> rs <> [] ->
  last (emitted i h) 0%Q = inject_Z (total rs).
Proof.
  intros R S NE. assert (H := C46_console_reports_partial _ _ _ _ _ _ R S). cbn [Reports] in H. rewrite H.
  destruct (snoc_cases rs) as [->|(z & w & ->)]; [congruence|].
  rewrite app_length. cbn [length]. rewrite Nat.add_1_r, seq_S, map_app. cbn [map]. rewrite last_last.
  rewrite firstn_all2; auto. rewrite app_length. cbn. lia.
Qed.

(** A histogram's reports, each times the size of its group, and what is pending add
    up to the total: each value is counted exactly once. *)
Lemma total_app a b : total (a ++ b) = total a + total b.
Proof. unfold total. rewrite map_app. induction (map fst a); cbn in *; lia. Qed.
Theorem C46_histogram_counts_every_value s h i t rs :
  reach s h -> since i h = Some (Histogram, t, Console, rs) ->
  exists sizes pending_values,
    length sizes = length (emitted i h) /\
    (fold_right Z.add 0 sizes + Z.of_nat (length pending_values) = Z.of_nat (length rs)) /\
    (exists done, rs = done ++ pending_values) /\ (length pending_values < 2000)%nat /\
    (fold_right Qplus 0 (map (fun p => fst p * inject_Z (snd p)) (combine (emitted i h) sizes))
      + inject_Z (total pending_values) == inject_Z (total rs))%Q.
Proof.
  intros R S. assert (H := C46_console_reports_partial _ _ _ _ _ _ R S). cbn [Reports] in H. clear S R.
  induction H as [t rest NE|t g x rest q qs NE EN RP G (sizes & pv & L & N & (dn & D) & P & T)].
  - exists [], rest. cbn. repeat split; auto.
    + now exists [].
    + destruct (snoc_cases rest) as [->|(p & x & ->)]; [cbn; lia|]. specialize (NE p x [] eq_refl).
      unfold histogram_ends in NE. lia.
    + apply Qplus_0_l.
  - exists (Z.of_nat (length (g ++ [x])) :: sizes), pv. cbn [length fold_right combine map fst snd].
    split; [lia|]. split; [rewrite !app_length in *; cbn [length]; lia|].
    split; [exists (g ++ x :: dn); now rewrite D, <- app_assoc|]. split; auto.
    replace (g ++ x :: rest) with ((g ++ [x]) ++ rest) by now rewrite <- app_assoc.
    rewrite (total_app (g ++ [x]) rest), inject_Z_plus, <- T, <- Qplus_assoc. apply Qplus_comp; [|reflexivity].
    unfold histogram_report in RP. rewrite RP. field. intros F. unfold Qeq in F. cbn in F.
    rewrite app_length in F. cbn in F. lia.
Qed.

(** *** What is false *)
Fixpoint exec (s : sys) (l : list op) : history :=
  match l with [] => [] | o :: l => let (s', r) := step s o in exec s' l ++ [(o, r)] end.
Fixpoint final (s : sys) (l : list op) : sys :=
  match l with [] => s | o :: l => final (fst (step s o)) l end.
Lemma exec_reach l : forall s h, reach s h -> reach (final s l) (exec s l ++ h).
Proof.
  induction l as [|o l IH]; intros s h R; [exact R|]. cbn [exec final]. destruct (step s o) as [s' r] eqn:E. cbn [fst].
  rewrite <- app_assoc. apply IH. econstructor; eauto.
Qed.
Lemma exec_start l : reach (final start l) (exec start l).
Proof. rewrite <- (app_nil_r (exec start l)). apply exec_reach. constructor. Qed.

Module Demo.
  Definition hits : text := ["h"; "."; "i"]%char.
  Definition tagA : tags := [([ "a" ], [ "1" ])]%char.
  Definition tagB : tags := [([ "a" ], [ "2" ])]%char.
  (** A counter created early drops what is recorded before the initialisation. *)
  Definition early := [New hits Counter 0; Record 0 5 1 []; Init Console 2; Record 0 3 3 []; Record 0 4 4 []].
  Example demo_since : since 0 (exec start early) = Some (Counter, 2, Console, [(3, 3); (4, 4)]).
  Proof. reflexivity. Qed.
  Example demo_emitted : emitted 0 (exec start early) = [inject_Z 3; inject_Z 7].
  Proof. reflexivity. Qed.
  (** A histogram reports averages, one second after the last report. *)
  Definition slow := [Init Prometheus 0; New hits Histogram 0; Record 0 1 10 []; Record 0 2 1000000000 [];
                      Record 0 9 1500000000 []; Record 0 9 2500000000 []; Record 0 7 2500000001 []].
  Example demo_slow : emitted 0 (exec start slow) = [3 # 2; 18 # 2].
  Proof. reflexivity. Qed.
  Example demo_slow_distinct : no_shutdown (exec start slow) /\ distinct_names (exec start slow).
  Proof.
    split.
    - intros o r I0 E. subst. cbn in I0. repeat (destruct I0 as [I0|I0]; [discriminate|]). exact I0.
    - vm_compute. repeat constructor.
  Qed.
  Example demo_two_distinct : distinct_names (exec start [Init Prometheus 0; New hits Counter 0; New ["h"; "."; "j"]%char Counter 0]).
  Proof. vm_compute. repeat constructor. intros X. inversion X as [|? ? ? ? A B]; subst; clear X.
    inversion B as [|? ? ? ? A1 B1]; subst. inversion B1 as [|? ? ? ? A2 B2]; subst.
    destruct A2 as [A2|[A2 _]]; [discriminate|]. cbn in A2. destruct A2 as [A2|[A2|[]]]; discriminate.
  Qed.
  (** A meter reports events per second. *)
  Definition rate := [Init Console 0; New hits Meter 0; Record 0 10 500000000 []; Record 0 2000 1000000 []; Record 0 6 2001000000 []].
  Example demo_rate : map Qred (emitted 0 (exec start rate)) = [2010000 # 1; 3 # 1].
  Proof. reflexivity. Qed.
  Definition again := [New hits Counter 0; Init Prometheus 1; Record 0 1 2 []; Shutdown; Init Prometheus 3; Record 0 1 4 []].
  Definition dots := [Init Prometheus 0; New hits Counter 0; New ["h"; ":"; "i"]%char Counter 0; Record 1 1 2 []].
  Definition tagged := [Init Prometheus 0; New hits Counter 0; Record 0 1 1 tagA; Record 0 1 2 tagB].
End Demo.

(** With prometheus, a metric goes silent when metrics are initialised again after a
    shutdown, and when another metric has the same name. *)
Theorem C46_reinitialised_prometheus_refuted : ~ C46_claim.
Proof.
  intros C. specialize (C _ _ 0%nat _ _ _ _ (exec_start Demo.again) eq_refl). discriminate C.
Qed.
Theorem C46_dot_and_colon_refuted : ~ (forall s h i k t b rs, reach s h -> no_shutdown h ->
  NoDup (map (fun x => fst (fst x)) (news h)) ->
  since i h = Some (k, t, b, rs) -> Reports k t rs (emitted i h)).
Proof.
  intros C. assert (X : Reports Counter 0 [(1, 2)] []).
  { refine (C _ _ 1%nat _ _ Prometheus _ (exec_start Demo.dots) _ _ eq_refl).
    - intros o r I0 E. subst. cbn in I0. repeat (destruct I0 as [I0|I0]; [discriminate|]). exact I0.
    - vm_compute. repeat constructor; cbn; intuition discriminate. }
  discriminate X.
Qed.

(** The value exported for a tag set is the last report with it ([Gauge.labels(tags).set]);
    a counter's should be the total recorded with these tags. *)
Definition tags_eqb (a b : tags) : bool :=
  if list_eq_dec (fun x y : text * text => ltac:(decide equality; apply (list_eq_dec ascii_dec))) a b then true else false.
Fixpoint exported (i : nat) (t : tags) (h : history) : option Q :=
  match h with
  | [] => None
  | (Record j _ _ _, Some (q, t')) :: h => if (j =? i)%nat && tags_eqb t t' then Some q else exported i t h
  | _ :: h => exported i t h
  end.
Fixpoint recorded (i : nat) (t : tags) (h : history) : Z :=
  match h with
  | [] => 0
  | (Record j v _ t', _) :: h => (if (j =? i)%nat && tags_eqb t t' then v else 0) + recorded i t h
  | _ :: h => recorded i t h
  end.
Theorem C46_tagged_counter_refuted : ~ (forall s b now n now' l i t q,
  let h := exec (fst (step (fst (step start (Init b now))) (New n Counter now'))) l in
  s = final start (Init b now :: New n Counter now' :: l) -> Forall (fun o => exists v x u, o = Record i v x u) l -> i = 0%nat ->
  exported i t h = Some q -> (q == inject_Z (recorded i t h))%Q).
Proof.
  intros C. specialize (C _ Prometheus 0 Demo.hits 0 [Record 0 1 1 Demo.tagA; Record 0 1 2 Demo.tagB] 0%nat Demo.tagB (inject_Z 2) eq_refl).
  assert (X : (inject_Z 2 == inject_Z 1)%Q).
  { apply C; auto. repeat constructor; eauto. }
  discriminate X.
Qed.

Print Assumptions C46_console_reports_partial.
Print Assumptions C46_distinct_names_reports_partial.
Print Assumptions C46_unconnected_is_silent.
Print Assumptions C46_counter_total.
Print Assumptions C46_histogram_counts_every_value.
Print Assumptions C46_reinitialised_prometheus_refuted.
Print Assumptions C46_dot_and_colon_refuted.
Print Assumptions C46_tagged_counter_refuted.
