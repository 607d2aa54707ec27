(** * UcxConfProofs: lemmas about UcxConfModel *)
From Coq Require Import List Bool Arith Lia Ascii String.
From Verif Require Import PyStr UcxConfModel UcxConfSpec.
Import ListNotations.
Open Scope list_scope.

Lemma teqb_true a b : text_eqb a b = true <-> a = b.
Proof. destruct (text_eqb_spec a b); split; congruence. Qed.

(** ** Dictionaries *)
Lemma dget_app d e k : dget (d ++ e) k = match dget e k with Some v => Some v | None => dget d k end.
Proof.
  induction d as [|[k' v'] d IH]; simpl; [destruct (dget e k); reflexivity|].
  rewrite IH. destruct (dget e k); reflexivity.
Qed.
Lemma dget_none d k : dget d k = None <-> no_entry (eq k) d.
Proof.
  unfold no_entry. induction d as [|[k' v'] d IH]; simpl.
  - split; [intros _ ? ? []|reflexivity].
  - destruct (dget d k) as [w|] eqn:E.
    + split; [discriminate|]. intros H. exfalso.
      assert (X : Some w = None); [|discriminate]. apply IH. intros k1 v1 I1. apply (H k1 v1). now right.
    + destruct (text_eqb_spec k' k) as [->|N].
      * split; [discriminate|]. intros H. exfalso. apply (H k v'); [now left|reflexivity].
      * split; [|reflexivity]. intros _ k1 v1 [X|I1] ->; [congruence|]. now apply (proj1 IH eq_refl k1 v1).
Qed.
Lemma dget_some d k v : dget d k = Some v <-> last_entry (eq k) d v.
Proof.
  unfold last_entry. split.
  - induction d as [|[k' v'] d IH]; simpl; [discriminate|].
    destruct (dget d k) eqn:E.
    + intros X. destruct (IH X) as (a & k1 & b & -> & -> & H). exists ((k', v') :: a), k1, b. auto.
    + destruct (text_eqb_spec k' k) as [->|N]; [|discriminate]. intros X. injection X as ->.
      exists [], k, d. repeat split; auto. intros k1 v1 I1. now apply (proj1 (dget_none d k) E k1 v1).
  - intros (a & k1 & b & -> & <- & H). rewrite dget_app. simpl.
    assert (X : dget b k = None) by (apply dget_none; exact H). now rewrite X, text_eqb_refl.
Qed.
Lemma has_false d k : has d k = false <-> dget d k = None.
Proof. unfold has. destruct (dget d k); split; congruence. Qed.

(** ** Names *)
Lemma upper1_spelled c d : (if Ascii.eqb c "-" then "_"%char else upper1 c) = d <-> spelled c d.
Proof.
  unfold spelled, upper1. destruct (Ascii.eqb_spec c "-") as [->|N].
  - split; [intros <-; auto|]. intros [[_ ->]|[(i & L & X & ->)|(X & _)]]; [reflexivity| |congruence].
    exfalso. assert (Y : nat_of_ascii "-"%char = 97 + i) by (rewrite X; apply nat_ascii_embedding; lia).
    assert (Z : nat_of_ascii "-"%char = 45) by reflexivity. lia.
  - remember (nat_of_ascii c) as n eqn:En.
    destruct (Nat.leb_spec 97 n); destruct (Nat.leb_spec n 122); cbn [andb].
    + split.
      * intros <-. right; left. exists (n - 97). split; [lia|].
        replace (97 + (n - 97)) with n by lia. split; [now rewrite En, ascii_nat_embedding|f_equal; lia].
      * intros [[-> _]|[(i & L & X & ->)|(_ & NX & ->)]]; [congruence| |].
        -- assert (Y : n = 97 + i) by (rewrite En, X; apply nat_ascii_embedding; lia). f_equal; lia.
        -- exfalso. apply NX. exists (n - 97). split; [lia|].
           replace (97 + (n - 97)) with n by lia. now rewrite En, ascii_nat_embedding.
    + split; [intros <-|].
      * right; right. repeat split; auto. intros (i & L & X).
        assert (Y : n = 97 + i) by (rewrite En, X; apply nat_ascii_embedding; lia). lia.
      * intros [[-> _]|[(i & L & X & ->)|(_ & NX & ->)]]; [congruence| |reflexivity].
        assert (Y : n = 97 + i) by (rewrite En, X; apply nat_ascii_embedding; lia). lia.
    + split; [intros <-|].
      * right; right. repeat split; auto. intros (i & L & X).
        assert (Y : n = 97 + i) by (rewrite En, X; apply nat_ascii_embedding; lia). lia.
      * intros [[-> _]|[(i & L & X & ->)|(_ & NX & ->)]]; [congruence| |reflexivity].
        assert (Y : n = 97 + i) by (rewrite En, X; apply nat_ascii_embedding; lia). lia.
    + split; [intros <-|].
      * right; right. repeat split; auto. intros (i & L & X).
        assert (Y : n = 97 + i) by (rewrite En, X; apply nat_ascii_embedding; lia). lia.
      * intros [[-> _]|[(i & L & X & ->)|(_ & NX & ->)]]; [congruence| |reflexivity].
        assert (Y : n = 97 + i) by (rewrite En, X; apply nat_ascii_embedding; lia). lia.
Qed.
Definition spell1 (c : ascii) : ascii := if Ascii.eqb c "-" then "_"%char else upper1 c.
Lemma names_map k x : names k x <-> map spell1 k = x.
Proof.
  unfold names. split.
  - induction 1 as [|c d k x H _ IH]; [reflexivity|]. simpl. rewrite IH. f_equal. now apply upper1_spelled.
  - intros <-. induction k as [|c k IH]; simpl; constructor; [now apply upper1_spelled|exact IH].
Qed.
Lemma join_cons c l : l <> [] -> forall x, join [c] ((x : text) :: l) = x ++ c :: join [c] l.
Proof. intros N x. destruct l; [congruence|]. reflexivity. Qed.
Lemma split_char (c d : ascii) s :
  split [c] (d :: s) = if Ascii.eqb c d then [] :: split [c] s
                       else match split [c] s with [] => [[d]] | p :: ps => (d :: p) :: ps end.
Proof.
  unfold split. rewrite split1_char.
  destruct (Ascii.eqb_spec c d) as [->|N]; [reflexivity|].
  destruct (split1_acc c s [d]) as (x & l & A & B). rewrite A, B. reflexivity.
Qed.
Lemma env_key_spec k : env_key k = lit "UCX_" ++ map spell1 k.
Proof.
  unfold env_key. f_equal. induction k as [|d k IH]; [reflexivity|].
  change (lit "-") with ["-"%char] in *. change (lit "_") with ["_"%char] in *. rewrite split_char.
  assert (NE := split_nonempty ["-"%char] k). cbn [map]. unfold spell1 at 1. rewrite (Ascii.eqb_sym d).
  destruct (Ascii.eqb "-" d).
  - cbn [map upper]. rewrite join_cons by (destruct (split ["-"%char] k); [congruence|discriminate]).
    cbn. now rewrite <- IH.
  - destruct (split ["-"%char] k) as [|p ps]; [congruence|]. cbn [map] in *.
    rewrite <- IH. unfold upper at 1. cbn [map]. destruct (map upper ps); reflexivity.
Qed.
Lemma opt_key_spec x : opt_key (lit "UCX_" ++ x) = x.
Proof. reflexivity. Qed.
Lemma variable_inj a b : lit "UCX_" ++ a = lit "UCX_" ++ b -> a = b.
Proof. intros H. injection H. auto. Qed.

(** ** The entries of "environment" *)
Fixpoint find_named (d : dict) (x : text) : option text :=
  match d with
  | [] => None
  | (k, v) :: r => match find_named r x with
                   | Some w => Some w
                   | None => if text_eqb (map spell1 k) x then Some v else None
                   end
  end.
Lemma find_named_none d x : find_named d x = None <-> no_entry (fun k => names k x) d.
Proof.
  unfold no_entry. induction d as [|[k' v'] d IH]; simpl.
  - split; [intros _ ? ? []|reflexivity].
  - destruct (find_named d x) as [w|] eqn:E.
    + split; [discriminate|]. intros H. exfalso.
      assert (X : Some w = None); [|discriminate]. apply IH. intros k1 v1 I1. apply (H k1 v1). now right.
    + destruct (text_eqb_spec (map spell1 k') x) as [Q|N].
      * split; [discriminate|]. intros H. exfalso. apply (H k' v'); [now left|now apply names_map].
      * split; [|reflexivity]. intros _ k1 v1 [X|I1]; [injection X as -> ->; now rewrite names_map|].
        now apply (proj1 IH eq_refl k1 v1).
Qed.
Lemma find_named_some d x v : find_named d x = Some v <-> last_entry (fun k => names k x) d v.
Proof.
  unfold last_entry. split.
  - induction d as [|[k' v'] d IH]; simpl; [discriminate|].
    destruct (find_named d x) as [w|] eqn:E.
    + intros X. destruct (IH X) as (a & k1 & b & -> & Hk & H). exists ((k', v') :: a), k1, b. auto.
    + destruct (text_eqb_spec (map spell1 k') x) as [Q|N]; [|discriminate]. intros X. injection X as ->.
      exists [], k', d. repeat split; auto; [now apply names_map|]. apply find_named_none. exact E.
  - intros (a & k1 & b & -> & Hk & H). induction a as [|[k2 v2] a IH]; simpl.
    + assert (X : find_named b x = None) by (apply find_named_none; exact H). rewrite X.
      apply names_map in Hk. now rewrite Hk, text_eqb_refl.
    + now rewrite IH.
Qed.
Lemma envs_of_get o e d : forall acc x,
  dget (envs_of o e d acc) (lit "UCX_" ++ x)
  = if has o x || has e (lit "UCX_" ++ x) then dget acc (lit "UCX_" ++ x)
    else match find_named d x with Some v => Some v | None => dget acc (lit "UCX_" ++ x) end.
Proof.
  induction d as [|[k v] d IH]; intros acc x.
  - cbn [envs_of find_named]. destruct (_ || _); reflexivity.
  - cbn [envs_of find_named]. rewrite env_key_spec, opt_key_spec.
    destruct (text_eqb_spec (map spell1 k) x) as [Q|N].
    + rewrite Q. destruct (has o x) eqn:A; [now rewrite IH, A|]. destruct (has e (lit "UCX_" ++ x)) eqn:B.
      * rewrite IH, A, B. reflexivity.
      * rewrite IH, A, B. cbn [orb]. unfold dset. rewrite dget_app. cbn [dget]. rewrite text_eqb_refl.
        destruct (find_named d x); reflexivity.
    + assert (Z : forall acc', dget (acc' ++ [(lit "UCX_" ++ map spell1 k, v)]) (lit "UCX_" ++ x) = dget acc' (lit "UCX_" ++ x)).
      { intros acc'. rewrite dget_app. cbn [dget].
        destruct (text_eqb_spec (lit "UCX_" ++ map spell1 k) (lit "UCX_" ++ x)) as [Q|_]; [|reflexivity].
        apply variable_inj in Q. congruence. }
      assert (F : match find_named d x with Some w => Some w | None => None end = find_named d x) by (destruct (find_named d x); reflexivity).
      rewrite F.
      destruct (has o (map spell1 k)); [apply IH|]. destruct (has e (lit "UCX_" ++ map spell1 k)); [apply IH|].
      rewrite IH. unfold dset. now rewrite Z.
Qed.
(** Only names UCX_… are written. *)
Lemma envs_of_names o e d : forall acc,
  (forall k v, In (k, v) acc -> exists x, k = lit "UCX_" ++ x) ->
  forall k v, In (k, v) (envs_of o e d acc) -> exists x, k = lit "UCX_" ++ x.
Proof.
  induction d as [|[k v] d IH]; intros acc H; cbn [envs_of]; auto.
  destruct (has o _); [now apply IH|]. destruct (has e _); [now apply IH|].
  apply IH. intros k1 v1 I1. unfold dset in I1. apply in_app_or in I1. destruct I1 as [I1|[I1|[]]]; [eauto|].
  injection I1 as <- <-. rewrite env_key_spec. eauto.
Qed.

(** ** The flags *)
Lemma flagged_b c : flagged c <-> tcp c || nvlink c || infiniband c = true.
Proof. unfold flagged. rewrite !orb_true_iff. tauto. Qed.
Lemma flags_get c e x v : dget e (lit "UCX_" ++ x) = None ->
  (dget (flag_options c e) x = Some v <-> by_flags c x v).
Proof.
  intros HN. unfold flag_options. destruct (tcp c || nvlink c || infiniband c) eqn:F.
  - assert (FL : flagged c) by now apply flagged_b.
    assert (TT : forall b, (if infiniband c
      then lit "ib," ++ (if nvlink c || cuda_copy c then lit "tcp" ++ lit ",cuda_copy" else lit "tcp")
      else (if nvlink c || cuda_copy c then lit "tcp" ++ lit ",cuda_copy" else lit "tcp")) ++ b
      = (if infiniband c
      then lit "ib," ++ (if nvlink c || cuda_copy c then lit "tcp" ++ lit ",cuda_copy" else lit "tcp")
      else (if nvlink c || cuda_copy c then lit "tcp" ++ lit ",cuda_copy" else lit "tcp")) ++ b) by reflexivity.
    clear TT.
    set (tl := if nvlink c then _ else _).
    assert (T : tl = join (lit ",") (transports c)).
    { unfold tl, transports. destruct (infiniband c), (nvlink c), (cuda_copy c); reflexivity. }
    rewrite T. clear T tl. cbn [dget].
    split.
    + destruct (text_eqb_spec (lit "SOCKADDR_TLS_PRIORITY") x) as [<-|N1].
      * intros X. injection X as <-. now apply flags_priority.
      * destruct (text_eqb_spec (lit "TLS") x) as [<-|N2]; [|discriminate].
        intros X. injection X as <-. now apply flags_transports.
    + intros H. inversion H; subst; reflexivity.
  - assert (NF : forall w, ~ by_flags c x w).
    { intros w H. assert (flagged c) by (inversion H; assumption). apply flagged_b in H0. congruence. }
    split; [|intros H; exfalso; eapply NF; eauto].
    destruct (dget e (lit "UCX_TLS")) as [t|] eqn:E; cbn [dget]; [|discriminate].
    destruct (text_eqb_spec (lit "TLS") x) as [<-|N]; [|discriminate].
    change (lit "UCX_" ++ lit "TLS") with (lit "UCX_TLS") in HN. congruence.
Qed.
Lemma by_flags_fun c x v w : by_flags c x v -> by_flags c x w -> v = w.
Proof.
  intros H1 H2. inversion H1; subst; inversion H2; subst; try reflexivity.
Qed.
Lemma var_get e x v : dget e (lit "UCX_" ++ x) = Some v <-> last_entry (variable x) e v.
Proof.
  rewrite dget_some. unfold last_entry, variable.
  split; intros (a & k & b & E & K & H); exists a, k, b; repeat split; auto; intros k' v' I1 X; apply (H k' v' I1); auto.
Qed.
Lemma var_none e x : dget e (lit "UCX_" ++ x) = None <-> no_entry (variable x) e.
Proof.
  rewrite dget_none. unfold no_entry, variable. split; intros H k v I1 X; apply (H k v I1); auto.
Qed.

(** What Python code sees in [os.environ] during [ucp.init] *)
Lemma python_sees c e x v :
  dget (dupdate e (snd (get_options c e))) (lit "UCX_" ++ x) = Some v
  <-> last_entry (variable x) e v
      \/ (no_entry (variable x) e /\ (forall w, ~ by_flags c x w) /\ last_entry (fun k => names k x) (environment c) v).
Proof.
  unfold get_options, dupdate. cbn [snd]. rewrite dget_app, envs_of_get. cbn [dget].
  rewrite <- var_get, <- var_none, <- find_named_some.
  destruct (dget e (lit "UCX_" ++ x)) as [w|] eqn:E.
  - assert (HE : has e (lit "UCX_" ++ x) = true) by (unfold has; now rewrite E).
    rewrite HE, orb_true_r. split; [auto|]. intros [X|(X & _)]; [exact X|discriminate].
  - assert (HE : has e (lit "UCX_" ++ x) = false) by (unfold has; now rewrite E).
    rewrite HE, orb_false_r. destruct (has (flag_options c e) x) eqn:HF.
    + split; [discriminate|]. intros [X|(_ & X & _)]; [discriminate|]. exfalso.
      unfold has in HF. destruct (dget (flag_options c e) x) as [w|] eqn:G; [|discriminate].
      apply (X w). now apply (flags_get c e x w E).
    + apply has_false in HF. split.
      * destruct (find_named (environment c) x) as [w|]; [|discriminate]. intros X. injection X as ->.
        right. repeat split; auto. intros w B. apply (flags_get c e x w E) in B. congruence.
      * intros [X|(_ & _ & X)]; [discriminate|]. now rewrite X.
Qed.
(** Every other variable is seen as it is. *)
Lemma python_sees_others c e k : (forall x, k <> lit "UCX_" ++ x) ->
  dget (dupdate e (snd (get_options c e))) k = dget e k.
Proof.
  intros H. unfold get_options, dupdate. cbn [snd]. rewrite dget_app.
  assert (X : dget (envs_of (flag_options c e) e (environment c) []) k = None); [|now rewrite X].
  apply dget_none. intros k1 v1 I1 <-. destruct (envs_of_names _ _ _ [] (fun _ _ (F : In _ []) => match F with end) _ _ I1) as (x & ->). now apply (H x).
Qed.

(** ** The CUDA context *)
Lemma is_in_spec p s : is_in p s = true <-> mentions p s.
Proof.
  unfold mentions. induction s as [|c s IH]; cbn [is_in]; rewrite orb_true_iff, startswith_app.
  - split.
    + intros [(t & E)|X]; [|discriminate]. exists [], t. exact E.
    + intros (a & b & E). left. exists b. destruct a; [exact E|discriminate].
  - rewrite IH. split.
    + intros [(t & E)|(a & b & ->)]; [exists [], t; exact E|exists (c :: a), b; reflexivity].
    + intros (a & b & E). destruct a as [|c' a]; [left; eauto|right]. injection E as -> ->. eauto.
Qed.
Lemma ucx_tls_spec c e :
  (exists v, documented c e (lit "TLS") v /\ ucx_tls e (fst (get_options c e)) (snd (get_options c e)) = v)
  \/ ((forall v, ~ documented c e (lit "TLS") v) /\ ucx_tls e (fst (get_options c e)) (snd (get_options c e)) = []).
Proof.
  unfold ucx_tls, get_options. cbn [fst snd]. change (lit "UCX_TLS") with (lit "UCX_" ++ lit "TLS").
  rewrite envs_of_get. cbn [dget].
  destruct (dget e (lit "UCX_" ++ lit "TLS")) as [w|] eqn:E.
  - left. exists w. split; [|reflexivity]. apply from_environment. now apply var_get.
  - assert (NE : no_entry (variable (lit "TLS")) e) by now apply var_none.
    assert (HE : has e (lit "UCX_" ++ lit "TLS") = false) by (unfold has; now rewrite E).
    rewrite HE, orb_false_r.
    destruct (dget (flag_options c e) (lit "TLS")) as [w|] eqn:F.
    + left. exists w. split; [|reflexivity]. apply from_flags; [exact NE|]. now apply (flags_get c e _ _ E).
    + assert (HF : has (flag_options c e) (lit "TLS") = false) by now apply has_false. rewrite HF.
      assert (NB : forall w, ~ by_flags c (lit "TLS") w) by (intros w B; apply (flags_get c e _ _ E) in B; congruence).
      destruct (find_named (environment c) (lit "TLS")) as [w|] eqn:G.
      * left. exists w. split; [|reflexivity]. apply from_entries; auto. now apply find_named_some.
      * right. split; [|reflexivity]. intros v D. inversion D as [? H|? _ H|? _ _ H]; subst.
        -- apply var_get in H. congruence.
        -- now apply (NB v).
        -- apply find_named_some in H. congruence.
Qed.
Lemma last_entry_fun P d v w : last_entry P d v -> last_entry P d w -> v = w.
Proof.
  intros (a & k & b & -> & K & H) (a' & k' & b' & E & K' & H').
  revert a' E. induction a as [|p a IH]; intros [|p' a'] E; cbn in E; injection E; intros.
  - congruence.
  - subst p'. exfalso. subst b. apply (H k' w); auto. apply in_or_app. right. now left.
  - subst p. exfalso. subst b'. apply (H' k v); auto. apply in_or_app. right. now left.
  - eauto.
Qed.
Lemma entry_excl P d v : no_entry P d -> ~ last_entry P d v.
Proof. intros N (a & k & b & -> & K & _). apply (N k v); auto. apply in_or_app. right. now left. Qed.
Lemma documented_fun c e x v w : documented c e x v -> documented c e x w -> v = w.
Proof.
  intros H1 H2. inversion H1 as [? A|? A B|? A B C]; subst; inversion H2 as [? A'|? A' B'|? A' B' C']; subst;
    try (eapply last_entry_fun; eassumption); try (exfalso; eapply entry_excl; eassumption);
    try (eapply by_flags_fun; eassumption); exfalso; [eapply B'; eauto|eapply B; eauto].
Qed.
Lemma wants_cuda_spec c e :
  wants_cuda c e (fst (get_options c e)) (snd (get_options c e)) = true <-> needs_cuda c e.
Proof.
  unfold wants_cuda, needs_cuda. rewrite orb_true_iff, andb_true_iff, negb_true_iff, is_in_spec.
  rewrite <- not_true_iff_false, is_in_spec.
  destruct (ucx_tls_spec c e) as [(v & D & ->)|(N & ->)].
  - split; (intros [X|X]; [now left|right]).
    + exists v. tauto.
    + destruct X as (w & D' & M). now rewrite (documented_fun _ _ _ _ _ D D').
  - split; (intros [X|X]; [now left|]).
    + destruct X as ((a & b & E) & _). destruct a; discriminate.
    + destruct X as (v & D & _). exfalso. eapply N; eauto.
Qed.

(** ** Histories *)
Lemma init_os c n ok p : os_environ (fst (init c n ok p)) = os_environ p.
Proof.
  unfold init. destruct (inited p); [reflexivity|]. destruct (get_options c (python_env p)) as [o en].
  destruct (_ && _); [reflexivity|]. destruct ok; reflexivity.
Qed.
Lemma init_env c n ok p : process_env (fst (init c n ok p)) = process_env p.
Proof.
  unfold init. destruct (inited p); [reflexivity|]. destruct (get_options c (python_env p)) as [o en].
  destruct (_ && _); [reflexivity|]. destruct ok; reflexivity.
Qed.
Definition settings (os : list op) : dict :=
  flat_map (fun o => match o with SetEnv k v => [(k, v)] | _ => [] end) os.
Lemma run_app p a b : run p (a ++ b) = run (run p a) b.
Proof. apply fold_left_app. Qed.
Lemma run_env p os : process_env (run p os) = process_env p ++ settings os /\ os_environ (run p os) = os_environ p.
Proof.
  induction os as [|o os IH] using rev_ind.
  - cbn. now rewrite app_nil_r.
  - rewrite run_app. unfold settings. rewrite flat_map_app. fold (settings os). cbn [run fold_left flat_map].
    destruct IH as [IH1 IH2]. destruct o; cbn [step].
    + now rewrite init_env, init_os, IH1, IH2, app_nil_r.
    + cbn. unfold dset. now rewrite IH1, IH2, app_assoc.
    + cbn. now rewrite IH1, IH2, app_nil_r.
Qed.
(** every recorded call of [ucp.init] *)
Definition recorded (p : proc) : Prop :=
  Forall (fun '(c, h) => h_options h = [] /\ h_python h = dupdate (h_process h) (snd (get_options c (h_process h)))) (attempts p)
  /\ incl (inits p) (attempts p).
Lemma recorded_run env os : recorded (run (fresh_process env) os).
Proof.
  induction os as [|o os IH] using rev_ind.
  - split; [constructor|intros ? []].
  - rewrite run_app. cbn [run fold_left]. assert (E := proj2 (run_env (fresh_process env) os)).
    set (p := run (fresh_process env) os) in *. change (fold_left step os (fresh_process env)) with p.
    destruct IH as [A B]. destruct o; cbn [step]; [|split; assumption..].
    unfold init. destruct (inited p); [split; assumption|].
    assert (PE : python_env p = process_env p) by (unfold python_env; now rewrite E). rewrite PE.
    destruct (get_options c (process_env p)) as [o en] eqn:G.
    destruct (_ && _); [split; assumption|].
    destruct ok; (split; [constructor; [|exact A]; split; [reflexivity|]; cbn [h_python h_process process_env]; rewrite G; reflexivity|]).
    + intros y [<-|Y]; [now left|right; auto].
    + intros y Y. right. now apply B.
Qed.
