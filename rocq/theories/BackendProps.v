(** * C80: An address is served by the backend of its scheme

    How to read.  [names_backend regs k b]: of the registrations [regs] (names, backend), the last that names the scheme [k]
    is of [b].  [written a k]: the address [a] is written with the scheme [k] (None: with no scheme, or what stands before the first colon is none).  Proved: after any
    registrations, in any history of calls, pools and cluster setups, every call and every pool of an address goes to the backend
    of its scheme, whatever was called before (C80_same_backend, C80_unregistered, C80_no_address); what a scheme is
    (C80_scheme, C80_no_scheme: letter case does not matter); a cluster setup tells every node with its resources to the
    driver of its scheme, each exactly once and in order (C80_setup); if some scheme has no backend, it raises and its nodes
    are told to nobody (C80_setup_unregistered); no node is told to a wrong driver (C80_setup_never_wrong).  The order matters: a backend that is registered again
    after a call gets new pools but not the calls (C80_register_late_refuted). *)
From Coq Require Import List Bool String Ascii Arith Lia Permutation.
From Verif Require Import BackendModel.
Import ListNotations.

(** ** Specification *)
Definition registration : Type := list (option string) * nat.
Definition names_backend (regs : list registration) (k : option string) (b : nat) : Prop :=
  exists r1 names r2, regs = r1 ++ (names, b) :: r2 /\ In k names /\ forall r, In r r2 -> ~ In k (fst r).
Definition is_letter (c : ascii) : Prop := 65 <= nat_of_ascii c <= 90 \/ 97 <= nat_of_ascii c <= 122.
Definition is_scheme_char (c : ascii) : Prop := is_letter c \/ 48 <= nat_of_ascii c <= 57 \/ In c ["+"; "-"; "."]%char.
Fixpoint each (P : ascii -> Prop) (s : string) : Prop := match s with EmptyString => True | String c t => P c /\ each P t end.
Definition is_scheme (s : string) : Prop := match s with EmptyString => False | String c _ => is_letter c /\ each is_scheme_char s end.
(** The same letters in lower case. *)
Definition lowered (c d : ascii) : Prop :=
  (65 <= nat_of_ascii c <= 90 /\ nat_of_ascii d = nat_of_ascii c + 32) \/ (~ (65 <= nat_of_ascii c <= 90) /\ d = c).
Fixpoint lowered_all (s t : string) : Prop :=
  match s, t with EmptyString, EmptyString => True | String c s', String d t' => lowered c d /\ lowered_all s' t' | _, _ => False end.
Definition has_separator (a : string) : Prop := exists x y, a = (x ++ "://" ++ y)%string.
Definition written (a : string) (k : option string) : Prop :=
  match k with
  | Some t => exists s rest, a = (s ++ "://" ++ rest)%string /\ is_scheme s /\ lowered_all s t
  | None => ~ has_separator a \/ exists s rest, a = (s ++ ":" ++ rest)%string /\ each (fun c => c <> ":"%char) s /\ ~ is_scheme s
  end.
Definition register_all (regs : list registration) : list op := map (fun r => Register (fst r) (snd r)) regs.
Definition is_use (o : op) : Prop := match o with Register _ _ => False | _ => True end.

(** ** Lemmas *)
Lemma key_eqb_eq a b : key_eqb a b = true <-> a = b.
Proof. destruct a, b; cbn; try (split; congruence). rewrite String.eqb_eq. split; congruence. Qed.
Lemma lookup_app d1 d2 k : lookup (d1 ++ d2) k = match lookup d1 k with Some b => Some b | None => lookup d2 k end.
Proof. induction d1 as [|[k' v] d IH]; cbn; auto. now destruct (key_eqb k' k). Qed.
Lemma lookup_names k b names : lookup (rev (map (fun n => (n, b)) names)) k = if existsb (fun n => key_eqb n k) names then Some b else None.
Proof.
  induction names as [|n l IH]; cbn; auto. rewrite lookup_app, IH. cbn. destruct (existsb _ l); destruct (key_eqb n k); reflexivity.
Qed.
Definition bindings (regs : list registration) : dict := fold_left (fun t r => rev (map (fun n => (n, snd r)) (fst r)) ++ t) regs [].
Lemma bindings_snoc regs r : bindings (regs ++ [r]) = rev (map (fun n => (n, snd r)) (fst r)) ++ bindings regs.
Proof. unfold bindings. now rewrite fold_left_app. Qed.
Lemma existsb_names k names : existsb (fun n => key_eqb n k) names = true <-> In k names.
Proof.
  rewrite existsb_exists. split; [intros (n & I & E); apply key_eqb_eq in E; now subst|intros I; exists k; split; auto; now apply key_eqb_eq].
Qed.
Lemma lookup_bindings regs k b : lookup (bindings regs) k = Some b <-> names_backend regs k b.
Proof.
  induction regs as [|r regs IH] using rev_ind.
  - split; [discriminate|intros (r1 & n & r2 & E & _); destruct r1; discriminate].
  - rewrite bindings_snoc, lookup_app, lookup_names. destruct (existsb _ (fst r)) eqn:X.
    + apply existsb_names in X. split.
      * intros [= <-]. exists regs, (fst r), []. rewrite <- surjective_pairing. split; [reflexivity|split; [exact X|intros ? []]].
      * intros (r1 & n & r2 & E & I & F). f_equal. destruct r2 as [|q r2 _] using rev_ind.
        -- apply app_inj_tail in E as [_ ->]. reflexivity.
        -- change (r1 ++ (n, b) :: r2 ++ [q]) with (r1 ++ ((n, b) :: r2) ++ [q]) in E. rewrite app_assoc in E. apply app_inj_tail in E as [_ ->].
           exfalso. apply (F q); auto. apply in_or_app. right. now left.
    + rewrite IH. split.
      * intros (r1 & n & r2 & -> & I & F). exists r1, n, (r2 ++ [r]). rewrite <- app_assoc. repeat split; auto.
        intros q Q. apply in_app_or in Q as [Q|[<-|[]]]; auto. intros J. apply existsb_names in J. congruence.
      * intros (r1 & n & r2 & E & I & F). destruct r2 as [|q r2 _] using rev_ind.
        -- apply app_inj_tail in E as [_ ->]. apply existsb_names in I. cbn [fst] in X. congruence.
        -- change (r1 ++ (n, b) :: r2 ++ [q]) with (r1 ++ ((n, b) :: r2) ++ [q]) in E. rewrite app_assoc in E. apply app_inj_tail in E as [-> ->].
           exists r1, n, r2. repeat split; auto. intros y Y. apply F. apply in_or_app. now left.
Qed.
Definition ok (s : state) : Prop := forall k b, lookup (contexts s) k = Some b -> lookup (table s) k = Some b.
Lemma step_use s o : ok s -> is_use o -> ok (fst (step s o)) /\ table (fst (step s o)) = table s.
Proof.
  intros O U. destruct o as [| [a|] | [a|] | nodes]; cbn in *; auto; try destruct U.
  unfold get_backend_context. destruct (lookup (contexts s) (scheme_of a)) eqn:C; cbn; auto. destruct (lookup (table s) (scheme_of a)) eqn:T; cbn; auto.
  split; auto. intros k b. cbn. destruct (key_eqb (scheme_of a) k) eqn:E; [apply key_eqb_eq in E as <-; congruence|apply O].
Qed.
Lemma register_run s regs : fst (run s (register_all regs)) = mkSt (fold_left (fun t r => rev (map (fun n => (n, snd r)) (fst r)) ++ t) regs (table s)) (contexts s).
Proof.
  unfold register_all. revert s. induction regs as [|r regs IH]; intros s; cbn; [now destruct s|]. destruct (run _ _) as [s2 rs] eqn:R. specialize (IH (mkSt (rev (map (fun n => (n, snd r)) (fst r)) ++ table s) (contexts s))).
  rewrite R in IH. exact IH.
Qed.
Lemma run_app s a b : run s (a ++ b) = let '(s1, r1) := run s a in let '(s2, r2) := run s1 b in (s2, r1 ++ r2).
Proof.
  revert s. induction a as [|o a IH]; intros s; cbn; [now destruct (run s b)|]. destruct (step s o) as [s1 r]. rewrite IH. destruct (run s1 a) as [s2 rs]. now destruct (run s2 b).
Qed.
Lemma uses_ok s ops : ok s -> Forall is_use ops -> ok (fst (run s ops)) /\ table (fst (run s ops)) = table s.
Proof.
  intros O F. revert s O. induction F as [|o ops U F IH]; intros s O; cbn; auto. destruct (step_use s o O U) as [O1 T1]. destruct (step s o) as [s1 r]. cbn [fst] in *.
  destruct (IH s1 O1) as [O2 T2]. destruct (run s1 ops). cbn [fst] in *. split; [exact O2|congruence].
Qed.
(** The answer to an operation after a history. *)
Definition answer (regs : list registration) (before : list op) (o : op) : outcome := snd (step (fst (run start (register_all regs ++ before))) o).
Lemma state_before regs before : Forall is_use before -> let s := fst (run start (register_all regs ++ before)) in ok s /\ table s = bindings regs.
Proof.
  intros F s. unfold s. rewrite run_app. pose proof (register_run start regs) as R. destruct (run start (register_all regs)) as [s1 r1]. cbn [fst] in R. subst s1.
  set (s1 := mkSt _ _). assert (O : ok s1) by (intros k b; discriminate). destruct (uses_ok s1 before O F) as [O2 T2]. destruct (run s1 before). cbn [fst] in *. split; auto.
Qed.

(** Schemes. *)
Lemma between_iff lo hi c : between lo hi c = true <-> nat_of_ascii lo <= nat_of_ascii c <= nat_of_ascii hi.
Proof. unfold between. rewrite andb_true_iff, !Nat.leb_le. reflexivity. Qed.
Lemma letter_iff c : letter c = true <-> is_letter c.
Proof. unfold letter, upper_case. rewrite orb_true_iff, !between_iff. reflexivity. Qed.
Lemma char_iff c : scheme_char c = true <-> is_scheme_char c.
Proof.
  unfold scheme_char. rewrite !orb_true_iff, letter_iff, between_iff, existsb_exists. unfold is_scheme_char.
  assert (X : (exists x, In x ["+"; "-"; "."]%char /\ (c =? x)%char = true) <-> In c ["+"; "-"; "."]%char).
  { split; [intros (x & I & E); apply Ascii.eqb_eq in E; now subst|intros I; exists c; split; auto; apply Ascii.eqb_refl]. }
  rewrite X. change (nat_of_ascii "0") with 48. change (nat_of_ascii "9") with 57. tauto.
Qed.
Lemma all_iff s : all_chars scheme_char s = true <-> each is_scheme_char s.
Proof. induction s; cbn; [tauto|]. now rewrite andb_true_iff, char_iff, IHs. Qed.
Lemma char_no_colon : ~ is_scheme_char ":".
Proof. rewrite <- char_iff. discriminate. Qed.
Lemma before_colon_app s rest : each is_scheme_char s -> before_colon (s ++ String ":" rest) = Some s.
Proof.
  induction s as [|c s IH]; cbn; auto. intros [C E]. rewrite IH by auto. destruct (Ascii.eqb_spec c ":"); auto. subst. now destruct (char_no_colon C).
Qed.
Lemma before_colon_none s rest : each (fun c => c <> ":"%char) s -> before_colon (s ++ String ":" rest) = Some s.
Proof.
  induction s as [|c s IH]; cbn; auto. intros [C E]. rewrite IH by auto. now destruct (Ascii.eqb_spec c ":").
Qed.
Lemma prefix_app p s : prefix p s = true <-> exists t, s = (p ++ t)%string.
Proof.
  revert s. induction p as [|c p IH]; intros s.
  - split; [exists s; auto|destruct s; auto].
  - destruct s as [|d s]; [split; [discriminate|intros (t & E); discriminate]|]. cbn [append]. destruct (ascii_dec c d) as [->|N].
    + change (prefix (String d p) (String d s)) with (if ascii_dec d d then prefix p s else false). destruct (ascii_dec d d) as [_|N]; [|congruence].
      rewrite IH. split; intros (t & E); exists t; congruence.
    + change (prefix (String c p) (String d s)) with (if ascii_dec c d then prefix p s else false). destruct (ascii_dec c d); [congruence|].
      split; [discriminate|intros (t & E); congruence].
Qed.
Lemma occurs_iff p s : occurs p s = true <-> exists x y, s = (x ++ p ++ y)%string.
Proof.
  induction s as [|c s IH]; cbn [occurs]; rewrite orb_true_iff, prefix_app.
  - split; [intros [(t & E)|X]; [exists ""%string, t; exact E|discriminate]|].
    intros (x & y & E). left. destruct x; [exists y; exact E|discriminate].
  - rewrite IH. split.
    + intros [(t & E)|(x & y & E)]; [exists ""%string, t; exact E|exists (String c x), y; cbn; now rewrite E].
    + intros (x & y & E). destruct x as [|d x]; [left; exists y; exact E|right; exists x, y; cbn in E; congruence].
Qed.
Lemma lower_spec s t : lowered_all s t -> lower s = t.
Proof.
  revert t. induction s as [|c s IH]; intros [|d t]; cbn; try tauto. intros [L A]. rewrite (IH t A). f_equal. unfold lower_char. destruct (upper_case c) eqn:U.
  - apply between_iff in U. change (nat_of_ascii "A") with 65 in U. change (nat_of_ascii "Z") with 90 in U. destruct L as [[_ E]|[N _]]; [|tauto]. rewrite <- E. apply ascii_nat_embedding.
  - destruct L as [[B _]|[_ ->]]; auto. assert (upper_case c = true) by (apply between_iff; exact B). congruence.
Qed.
Theorem C80_scheme : forall a k, written a k -> scheme_of a = k.
Proof.
  intros a [t|] W; unfold scheme_of.
  - destruct W as (s & rest & -> & I & L). assert (O : occurs "://" (s ++ "://" ++ rest) = true) by (apply occurs_iff; eauto). rewrite O.
    destruct s as [|c s]; [destruct I|]. destruct I as [C E]. unfold url_scheme. change (String c s ++ "://" ++ rest)%string with (String c s ++ String ":" ("//" ++ rest))%string.
    rewrite before_colon_app by exact E. apply letter_iff in C. apply all_iff in E. rewrite C, E. cbn [andb]. rewrite (lower_spec _ _ L). destruct t; [destruct L|reflexivity].
  - destruct W as [W|(s & rest & -> & C & N)]; [destruct (occurs "://" a) eqn:O; auto; apply occurs_iff in O; now destruct W|].
    destruct (occurs _ _); auto. unfold url_scheme. change (s ++ ":" ++ rest)%string with (s ++ String ":" rest)%string. rewrite before_colon_none by exact C.
    destruct s as [|c t]; [reflexivity|]. destruct (letter c && all_chars scheme_char (String c t)) eqn:E; [|reflexivity].
    apply andb_true_iff in E as [E1 E2]. destruct N. split; [now apply letter_iff|now apply all_iff].
Qed.

(** ** Theorems *)
Theorem C80_same_backend : forall regs before a k b, Forall is_use before -> written a k -> names_backend regs k b ->
  answer regs before (Call (Some a)) = By b a /\ answer regs before (CreatePool (Some a)) = By b a.
Proof.
  intros regs before a k b F W N. apply C80_scheme in W. apply lookup_bindings in N. destruct (state_before regs before F) as [O T]. unfold answer.
  set (s := fst _) in *. cbn [step]. unfold get_backend_context. rewrite W, T, N. split; [|reflexivity].
  destruct (lookup (contexts s) k) as [b'|] eqn:C; [|reflexivity]. apply O in C. cbn. congruence.
Qed.
Theorem C80_unregistered : forall regs before a k, Forall is_use before -> written a k -> (forall b, ~ names_backend regs k b) ->
  answer regs before (Call (Some a)) = Failed KeyError /\ answer regs before (CreatePool (Some a)) = Failed KeyError.
Proof.
  intros regs before a k F W N. apply C80_scheme in W. destruct (state_before regs before F) as [O T]. unfold answer.
  set (s := fst _) in *. cbn [step]. unfold get_backend_context.
  assert (L : lookup (table s) k = None). { rewrite T. destruct (lookup (bindings regs) k) eqn:L; auto. apply lookup_bindings in L. now apply N in L. }
  rewrite W, L. split; [|reflexivity]. destruct (lookup (contexts s) k) as [b'|] eqn:C; [|reflexivity]. apply O in C. congruence.
Qed.
Theorem C80_no_address : forall regs before nodes r, answer regs before (Call None) = Failed ValueError /\ answer regs before (CreatePool None) = Failed ValueError /\
  (In (None, r) nodes -> answer regs before (Setup nodes) = Failed ValueError).
Proof.
  intros regs before nodes r. repeat split. intros I. unfold answer. cbn [step snd].
  assert (G : forall g, group g nodes = None). { induction nodes as [|[[a|] r'] l IH]; [destruct I| |reflexivity]. intros g. cbn. destruct I as [I|I]; [discriminate|auto]. }
  now rewrite G.
Qed.

(** The setup of a cluster. *)
Definition nodes_of (l : list (string * nat)) : list (option string * nat) := map (fun n => (Some (fst n), snd n)) l.
Definition of_key (k : option string) (n : string * nat) : bool := key_eqb (scheme_of (fst n)) k.
Definition good (g : groups) (seen : list (string * nat)) : Prop :=
  NoDup (map fst g) /\ (forall k l, In (k, l) g -> l = filter (of_key k) seen /\ l <> []) /\ (forall n, In n seen -> In (scheme_of (fst n)) (map fst g)).
Lemma put_keys g k n : map fst (put g k n) = map fst g ++ (if existsb (fun k' => key_eqb k' k) (map fst g) then [] else [k]).
Proof. induction g as [|[k' l] g IH]; cbn; auto. destruct (key_eqb k' k); cbn; [now rewrite app_nil_r|now rewrite IH]. Qed.
Lemma put_in g k n k' l' : NoDup (map fst g) -> In (k', l') (put g k n) ->
  (k' <> k /\ In (k', l') g) \/ (k' = k /\ ((exists l, In (k, l) g /\ l' = l ++ [n]) \/ (~ In k (map fst g) /\ l' = [n]))).
Proof.
  induction g as [|[q l] g IH]; cbn; intros ND I.
  - destruct I as [I|[]]. injection I as <- <-. right. split; auto. 
  - inversion ND as [|? ? NI ND']; subst. destruct (key_eqb q k) eqn:E.
    + apply key_eqb_eq in E as ->. destruct I as [I|I].
      * injection I as <- <-. right. split; auto. left. exists l. auto.
      * left. split; [|auto]. intros ->. apply NI. apply in_map_iff. now exists (k, l').
    + assert (q <> k) by (intros X; apply key_eqb_eq in X; congruence). destruct I as [I|I].
      * injection I as <- <-. left. split; auto.
      * destruct (IH ND' I) as [[A B]|[A [(l0 & B & C)|[B C]]]]; [left; auto|right; split; auto; left; eauto|right; split; auto; right; split; auto; intros [X|X]; auto].
Qed.
Lemma good_put g seen n : good g seen -> good (put g (scheme_of (fst n)) n) (seen ++ [n]).
Proof.
  intros (ND & L & C). set (k := scheme_of (fst n)). repeat split.
  - rewrite put_keys. destruct (existsb _ _) eqn:X; [now rewrite app_nil_r|]. apply (Permutation_NoDup (Permutation_cons_append (map fst g) k)).
    constructor; auto. intros I. apply existsb_names in I. congruence.
  - destruct (put_in g k n k0 l ND H) as [[A B]|[-> [(l0 & B & ->)|[B ->]]]]; rewrite filter_app; cbn; unfold of_key at 2; fold k.
    + destruct (key_eqb k k0) eqn:E; [apply key_eqb_eq in E; congruence|]. rewrite app_nil_r. now apply L.
    + assert (key_eqb k k = true) as -> by now apply key_eqb_eq. f_equal. now apply L.
    + assert (key_eqb k k = true) as -> by now apply key_eqb_eq. assert (filter (of_key k) seen = []) as ->; auto.
      destruct (filter (of_key k) seen) as [|m r] eqn:E; auto. exfalso. assert (I : In m (filter (of_key k) seen)) by (rewrite E; now left). apply filter_In in I as [I J]. apply key_eqb_eq in J. apply B. rewrite <- J. now apply C.
  - destruct (put_in g k n k0 l ND H) as [[A B]|[-> [(l0 & B & ->)|[B ->]]]]; [now apply (L k0)|now destruct l0|discriminate].
  - intros m I. rewrite put_keys. apply in_or_app. apply in_app_or in I as [I|[<-|[]]]; [left; now apply C|]. fold k. destruct (existsb _ _) eqn:X; [left; now apply existsb_names|right; now left].
Qed.
Lemma group_good l g seen : good g seen -> exists g', group g (nodes_of l) = Some g' /\ good g' (seen ++ l).
Proof.
  revert g seen. induction l as [|n l IH]; intros g seen G; cbn; [rewrite app_nil_r; eauto|].
  destruct (IH _ _ (good_put g seen n G)) as (g' & E & G'). rewrite <- app_assoc in G'. rewrite <- surjective_pairing. eauto.
Qed.
Lemma tell_all t g : (forall k, In k (map fst g) -> exists b, lookup t k = Some b) -> exists calls, tell t g = (calls, None) /\ map snd calls = map snd g /\
   Forall2 (fun c kl => lookup t (fst kl) = Some (fst c)) calls g.
Proof.
  induction g as [|[k l] g IH]; intros H; cbn; [exists []; repeat split; constructor|]. destruct (H k (or_introl eq_refl)) as [b B]. rewrite B.
  destruct IH as (calls & E & M & F); [intros k' I; apply H; now right|]. rewrite E. exists ((b, l) :: calls). cbn. rewrite M. repeat split; auto.
Qed.
Lemma tell_part t g calls e : tell t g = (calls, e) -> exists g1 g2, g = g1 ++ g2 /\ map snd calls = map snd g1 /\ Forall2 (fun c kl => lookup t (fst kl) = Some (fst c)) calls g1.
Proof.
  revert calls e. induction g as [|[k l] g IH]; intros calls e H; cbn in H.
  - injection H as <- <-. exists [], []. repeat split; constructor.
  - destruct (lookup t k) eqn:B; [|injection H as <- <-; exists [], ((k, l) :: g); repeat split; constructor].
    destruct (tell t g) as [c e'] eqn:T. injection H as <- <-. destruct (IH _ _ eq_refl) as (g1 & g2 & -> & M & F). exists ((k, l) :: g1), g2. cbn. rewrite M. repeat split; auto.
Qed.
Lemma in_calls (t : dict) (calls : list (nat * list (string * nat))) (g : groups) c l : Forall2 (fun c kl => lookup t (fst kl) = Some (fst c)) calls g -> map snd calls = map snd g -> In (c, l) calls -> exists k, In (k, l) g /\ lookup t k = Some c.
Proof.
  intros F. revert l. induction F as [|[b m] [k m'] cs gs E F IH]; cbn; intros l M I; [destruct I|]. injection M as -> M. destruct I as [I|I].
  - injection I as <- <-. exists k. split; auto.
  - destruct (IH l M I) as (k' & A & B). exists k'. auto.
Qed.
Lemma partition_perm (g : groups) seen : good g seen -> Permutation (List.concat (map snd g)) seen.
Proof.
  intros (ND & L & C).
  assert (X : List.concat (map snd g) = List.concat (map (fun k => filter (of_key k) seen) (map fst g))).
  { rewrite map_map. f_equal. apply map_ext_in. intros [k l] I. cbn. now apply L. }
  rewrite X. clear X L. revert C. generalize (map fst g) ND. clear. intros ks ND. revert seen. induction ND as [|k ks NI ND IH]; intros seen C; cbn.
  - destruct seen as [|n l]; auto. destruct (C n (or_introl eq_refl)).
  - assert (P : Permutation (filter (of_key k) seen ++ filter (fun n => negb (of_key k n)) seen) seen).
    { clear. induction seen as [|n l IH]; cbn; auto. destruct (of_key k n); cbn; [now constructor|]. etransitivity; [symmetry; apply Permutation_middle|]. now constructor. }
    rewrite <- P at 2. apply Permutation_app_head. rewrite <- (IH (filter (fun n => negb (of_key k n)) seen)).
    + apply Permutation_refl'. f_equal. apply map_ext_in. intros k' I. clear - I NI. induction seen as [|n l IH]; cbn; auto.
      destruct (of_key k n) eqn:E; cbn; destruct (of_key k' n) eqn:E'; rewrite ?IH; auto.
      unfold of_key in E, E'. apply key_eqb_eq in E, E'. congruence.
    + intros n I. apply filter_In in I as [I J]. destruct (C n I) as [E|E]; auto. unfold of_key in J. rewrite <- E in J. assert (key_eqb k k = true) as K by now apply key_eqb_eq. rewrite K in J. discriminate.
Qed.
Lemma good_nil : good [] [].
Proof. repeat split; [constructor|destruct H|destruct H|intros n []]. Qed.
Theorem C80_setup : forall regs before l, Forall is_use before -> (forall n, In n l -> exists k b, written (fst n) k /\ names_backend regs k b) ->
  exists calls, answer regs before (Setup (nodes_of l)) = Told calls None /\
    Permutation (List.concat (map snd calls)) l /\
    (forall b ns, In (b, ns) calls -> ns <> [] /\ exists f, ns = filter f l) /\
    (forall b ns n k, In (b, ns) calls -> In n ns -> written (fst n) k -> names_backend regs k b).
Proof.
  intros regs before l F R. destruct (state_before regs before F) as [_ T]. unfold answer. set (s := fst _) in *. cbn [step snd].
  destruct (group_good l [] [] good_nil) as (g & E & G). cbn [app] in G. rewrite E.
  destruct (tell_all (table s) g) as (calls & Q & M & A).
  { intros k I. apply in_map_iff in I as ([k' m] & <- & I). destruct G as (_ & L & _). destruct (L _ _ I) as [Em Ne]. destruct m as [|n m]; [congruence|].
    assert (J : In n (filter (of_key k') l)) by (rewrite <- Em; now left). apply filter_In in J as [J K]. apply key_eqb_eq in K. destruct (R n J) as (k & b & W & N). apply C80_scheme in W. exists b. cbn. rewrite T. apply lookup_bindings. congruence. }
  rewrite Q. exists calls. repeat split.
  - rewrite M. now apply partition_perm.
  - destruct (in_calls _ _ _ _ _ A M H) as (k & I & _). destruct G as (_ & L & _). now apply (L k).
  - destruct (in_calls _ _ _ _ _ A M H) as (k & I & _). destruct G as (_ & L & _). exists (of_key k). now apply (L k).
  - intros b ns n k I J W. destruct (in_calls _ _ _ _ _ A M I) as (k' & I' & B). destruct G as (_ & L & _). destruct (L _ _ I') as [-> _]. apply filter_In in J as [_ J]. apply key_eqb_eq in J.
    apply C80_scheme in W. apply lookup_bindings. rewrite <- T. congruence.
Qed.
Theorem C80_setup_never_wrong : forall regs before l calls e b ns n k, Forall is_use before -> answer regs before (Setup (nodes_of l)) = Told calls e ->
  In (b, ns) calls -> In n ns -> In n l /\ (written (fst n) k -> names_backend regs k b).
Proof.
  intros regs before l calls e b ns n k F H I J. destruct (state_before regs before F) as [_ T]. unfold answer in H. set (s := fst _) in *. cbn [step snd] in H.
  destruct (group_good l [] [] good_nil) as (g & E & G). cbn [app] in G. rewrite E in H. destruct (tell (table s) g) as [c e'] eqn:Q. injection H as -> ->.
  destruct (tell_part _ _ _ _ Q) as (g1 & g2 & -> & M & A). destruct (in_calls _ _ _ _ _ A M I) as (k' & I' & B). destruct G as (_ & L & _).
  destruct (L k' ns) as [-> _]; [apply in_or_app; now left|]. apply filter_In in J as [J0 J]. split; auto. intros W. apply key_eqb_eq in J. apply C80_scheme in W. apply lookup_bindings. rewrite <- T. congruence.
Qed.
Lemma tell_error t g k : In k (map fst g) -> lookup t k = None -> snd (tell t g) = Some KeyError.
Proof.
  induction g as [|[k' l] g IH]; cbn; intros I L; [destruct I|]. destruct (lookup t k') eqn:E; [|reflexivity].
  destruct I as [->|I]; [congruence|]. specialize (IH I L). destruct (tell t g). exact IH.
Qed.
Theorem C80_setup_unregistered : forall regs before l n k, Forall is_use before -> In n l -> written (fst n) k -> (forall b, ~ names_backend regs k b) ->
  exists calls, answer regs before (Setup (nodes_of l)) = Told calls (Some KeyError) /\ forall b ns, In (b, ns) calls -> ~ In n ns.
Proof.
  intros regs before l n k F I W N. destruct (answer regs before (Setup (nodes_of l))) as [| |calls e|] eqn:A.
  4: { exfalso. unfold answer in A. cbn [step snd] in A. destruct (group_good l [] [] good_nil) as (g & E & _). rewrite E in A. destruct (tell _ g). discriminate. }
  1,2: exfalso; unfold answer in A; cbn [step snd] in A; destruct (group _ _); [destruct (tell _ _)|]; discriminate.
  exists calls. split.
  - destruct (state_before regs before F) as [_ T]. unfold answer in A. set (s := fst (run _ _)) in *. cbn [step snd] in A.
    destruct (group_good l [] [] good_nil) as (g & E & G). cbn [app] in G. rewrite E in A. apply C80_scheme in W.
    assert (X : snd (tell (table s) g) = Some KeyError).
    { apply tell_error with k; [rewrite <- W; now apply G|]. rewrite T. destruct (lookup (bindings regs) k) eqn:L; auto. apply lookup_bindings in L. now apply N in L. }
    destruct (tell (table s) g) as [c e']. cbn in X. congruence.
  - intros b ns J1 J2. destruct (C80_setup_never_wrong regs before l calls e b ns n k F A J1 J2) as [_ X]. now apply (N b), X.
Qed.
(** Without the order: a backend registered again after a call gets the new pools, while the calls go on to the old one. *)
Definition C80_register_late_claim : Prop := forall regs before a k b, written a k -> (forall b', names_backend regs k b' -> b' = b) ->
  answer [] (register_all regs ++ before) (CreatePool (Some a)) = answer [] (register_all regs ++ before) (Call (Some a)).
Theorem C80_register_late_refuted : ~ C80_register_late_claim.
Proof.
  intros C. specialize (C [([None], 1)] [Call (Some "h:1"%string); Register [None] 2] "h:1"%string None 1). vm_compute in C. assert (X : By 2 "h:1" = By 1 "h:1"); [|discriminate]. apply C.
  - left. intros (x & y & E). destruct x as [|a [|b [|c [|d x]]]]; cbn in E; try discriminate E; injection E; try discriminate; intros; destruct x; discriminate.
  - intros b' N. apply lookup_bindings in N. vm_compute in N. congruence.
Qed.

Module Demo.
Definition regs : list registration := [([None; Some "ucx"%string], 1); ([Some "test"%string], 2)].
Example demo_written : written "UCX://h:1" (Some "ucx"%string) /\ names_backend regs (Some "ucx"%string) 1.
Proof.
  split; [exists "UCX"%string, "h:1"%string; cbn; unfold is_letter, is_scheme_char, is_letter, lowered; cbn; repeat split; try lia|apply lookup_bindings; reflexivity].
Qed.
Example demo_setup : answer regs [Call (Some "test://x"%string)] (Setup [(Some "h:1"%string, 5); (Some "test://a"%string, 6); (Some "h:2"%string, 7); (Some "UCX://h:3"%string, 8)]) =
  Told [(1, [("h:1", 5); ("h:2", 7)]); (2, [("test://a", 6)]); (1, [("UCX://h:3", 8)])]%string None.
Proof. vm_compute. reflexivity. Qed.
Example demo_no_scheme : written "my_pool://h:1" None.
Proof.
  right. exists "my_pool"%string, "//h:1"%string. split; [reflexivity|]. split; [cbn; repeat split; discriminate|]. intros [_ E]. apply all_iff in E. discriminate E.
Qed.
Example demo_unknown : answer regs [] (Setup [(Some "h:1"%string, 5); (Some "unixsocket:///0"%string, 6)]) = Told [(1, [("h:1", 5)])]%string (Some KeyError).
Proof. vm_compute. reflexivity. Qed.
End Demo.

Print Assumptions C80_scheme.
Print Assumptions C80_same_backend.
Print Assumptions C80_unregistered.
Print Assumptions C80_no_address.
Print Assumptions C80_setup.
Print Assumptions C80_setup_never_wrong.
Print Assumptions C80_setup_unregistered.
Print Assumptions C80_register_late_refuted.
