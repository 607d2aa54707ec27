(** * C47 (requirement lists with markers)

    How to read.  [filter_requirements L vars l] is what the function returns for the list [l]
    and the variables [vars]; [L] holds what the libraries answer (packaging's parser, Python's
    parser, the environment).  [read_string] is Python reading a string literal after its
    opening quote.  [eval env e] is the code's evaluation of a parsed custom marker. *)
From Coq Require Import String Ascii DecimalString DecimalZ.
From Coq Require Import List ZArith Lia Bool.
From Verif Require Import MarkerModel.
Import ListNotations.
Open Scope list_scope.
Open Scope Z_scope.

(** ** String variables *)
Definition codepoints (t : text) : Prop := Forall (fun c => 0 <= c < 1114112) t.

Lemma hex_ok d : 0 <= d < 16 -> hexv (hexd d) = Some d.
Proof.
  intros H. unfold hexv, hexd. destruct (Z.ltb_spec d 10).
  - replace ((48 <=? 48 + d) && (48 + d <=? 57)) with true by (symmetry; apply andb_true_iff; split; apply Z.leb_le; lia).
    f_equal. lia.
  - replace ((48 <=? 87 + d) && (87 + d <=? 57)) with false by (symmetry; apply andb_false_iff; right; apply Z.leb_gt; lia).
    replace ((97 <=? 87 + d) && (87 + d <=? 102)) with true by (symmetry; apply andb_true_iff; split; apply Z.leb_le; lia).
    f_equal. lia.
Qed.
Definition scons (c : Z) (r : option (text * text)) : option (text * text) :=
  match r with Some (t, r) => Some (c :: t, r) | None => None end.
Lemma read_u n s : 0 <= n < 65536 -> read_string (uXXXX n ++ s) = scons n (read_string s).
Proof.
  intros H. unfold uXXXX. cbn [app read_string]. cbn [Z.eqb Pos.eqb orb].
  rewrite !hex_ok by (apply Z.mod_pos_bound; lia).
  replace (4096 * (n / 4096 mod 16) + 256 * (n / 256 mod 16) + 16 * (n / 16 mod 16) + n mod 16) with n; [reflexivity|].
  replace (n / 4096) with (n / 16 / 16 / 16) by (rewrite !Z.div_div by lia; f_equal; lia).
  replace (n / 256) with (n / 16 / 16) by (rewrite !Z.div_div by lia; f_equal; lia).
  assert (n / 16 / 16 / 16 < 16).
  { apply Z.div_lt_upper_bound; [lia|]. apply Z.div_lt_upper_bound; [lia|]. apply Z.div_lt_upper_bound; lia. }
  assert (0 <= n / 16 / 16 / 16) by (repeat (apply Z.div_pos; [|lia]); lia).
  rewrite (Z.mod_small (n / 16 / 16 / 16)) by lia.
  pose proof (Z.div_mod n 16). pose proof (Z.div_mod (n / 16) 16). pose proof (Z.div_mod (n / 16 / 16) 16). lia.
Qed.
(** What Python reads for one character of the string. *)
Definition read_back (c : Z) : text :=
  if c <? 65536 then [c] else [55296 + (c - 65536) / 1024; 56320 + (c - 65536) mod 1024].
Lemma scons_app c t r : scons c (match r with Some (x, y) => Some (t ++ x, y) | None => None end)
  = match r with Some (x, y) => Some ((c :: t) ++ x, y) | None => None end.
Proof. now destruct r as [[x y]|]. Qed.
Lemma read_char c s : 0 <= c < 1114112 ->
  read_string (json_char c ++ s) = match read_string s with Some (t, r) => Some (read_back c ++ t, r) | None => None end.
Proof.
  intros H. unfold json_char, read_back.
  destruct (Z.eqb_spec c 34) as [->|]; [reflexivity|]. destruct (Z.eqb_spec c 92) as [->|]; [reflexivity|].
  destruct (Z.eqb_spec c 10) as [->|]; [reflexivity|]. destruct (Z.eqb_spec c 13) as [->|]; [reflexivity|].
  destruct (Z.eqb_spec c 9) as [->|]; [reflexivity|]. destruct (Z.eqb_spec c 12) as [->|]; [reflexivity|].
  destruct (Z.eqb_spec c 8) as [->|]; [reflexivity|].
  destruct ((32 <=? c) && (c <=? 126)) eqn:P.
  - apply andb_true_iff in P as [P1 P2]. apply Z.leb_le in P1, P2. cbn [app read_string].
    destruct (Z.eqb_spec c 34); [lia|]. destruct (Z.eqb_spec c 10); [lia|]. destruct (Z.eqb_spec c 13); [lia|].
    destruct (Z.eqb_spec c 92); [lia|]. cbn [orb]. destruct (Z.ltb_spec c 65536); [reflexivity|lia].
  - destruct (Z.ltb_spec c 65536).
    + rewrite read_u by lia. reflexivity.
    + cbv zeta. assert (B : 0 <= (c - 65536) / 1024 < 1024) by (split; [apply Z.div_pos; lia|apply Z.div_lt_upper_bound; lia]).
      rewrite <- app_assoc. rewrite (Z.mod_small ((c - 65536) / 1024)) by lia.
      pose proof (Z.mod_pos_bound (c - 65536) 1024). rewrite !read_u by lia.
      destruct (read_string s) as [[t r]|]; reflexivity.
Qed.
Lemma read_chars t s : codepoints t ->
  read_string (flat_map json_char t ++ s) = match read_string s with Some (x, r) => Some (flat_map read_back t ++ x, r) | None => None end.
Proof.
  induction 1 as [|c t C _ IH]; cbn [flat_map app]; [destruct (read_string s) as [[x r]|]; reflexivity|].
  rewrite <- app_assoc, read_char, IH by auto. destruct (read_string s) as [[x r]|]; [|reflexivity]. now rewrite <- app_assoc.
Qed.

(** A string of characters of the basic plane is substituted by a literal that Python reads back as
    that string, whatever follows it. *)
Theorem C47_string_reads_back_partial : forall t rest, Forall (fun c => 0 <= c < 65536) t ->
  exists body, formatted (VStr t) = u """" ++ body /\ read_string (body ++ rest) = Some (t, rest).
Proof.
  intros t rest F. exists (flat_map json_char t ++ [34]). split; [reflexivity|].
  rewrite <- app_assoc. cbn [app]. rewrite read_chars by (eapply Forall_impl; [|exact F]; cbn; lia).
  cbn [read_string Z.eqb Pos.eqb]. rewrite app_nil_r. f_equal. f_equal.
  induction F as [|c t C _ IH]; [reflexivity|]. cbn [flat_map]. rewrite IH. unfold read_back.
  destruct (Z.ltb_spec c 65536); [reflexivity|lia].
Qed.
(** In full it would hold for all strings; a character beyond the basic plane comes back as two. *)
Theorem C47_string_reads_back_refuted : ~ forall t rest, codepoints t ->
  exists body, formatted (VStr t) = u """" ++ body /\ read_string (body ++ rest) = Some (t, rest).
Proof.
  intros C. destruct (C [128512] []) as (body & E & R).
  - constructor; [lia|constructor].
  - assert (X : body = flat_map json_char [128512] ++ [34]) by (injection E as E; symmetry; exact E).
    subst body. vm_compute in R. discriminate.
Qed.

(** ** Other variables *)
(** How Python reads a run of decimal digits, and the literal of an integer *)
Definition digits_value (t : text) : Z := fold_left (fun acc c => 10 * acc + (c - 48)) t 0.
Definition all_digits (t : text) : Prop := t <> [] /\ Forall (fun c => 48 <= c <= 57) t.
Definition int_literal (t : text) (z : Z) : Prop :=
  (all_digits t /\ z = digits_value t) \/ exists t', t = u "-" ++ t' /\ all_digits t' /\ z = - digits_value t'.
(** The text Python evaluates to the value *)
Definition literal (t : text) (v : value) : Prop :=
  match v with
  | VNone => t = u "None"
  | VBool b => t = (if b then u "True" else u "False")
  | VInt z => int_literal t z
  | VStr x => exists body, t = u """" ++ body /\ forall rest, read_string (body ++ rest) = Some (x, rest)
  | VVer _ => True
  end.
Lemma u_cons a x : u (String a x) = Z.of_nat (nat_of_ascii a) :: u x.
Proof. reflexivity. Qed.
Lemma uint_acc d acc : fold_left (fun acc c => 10 * acc + (c - 48)) (u (NilEmpty.string_of_uint d)) (Zpos acc) = Zpos (Pos.of_uint_acc d acc).
Proof.
  revert acc. induction d as [|d IH|d IH|d IH|d IH|d IH|d IH|d IH|d IH|d IH|d IH]; intros acc; [reflexivity|..];
    cbn [NilEmpty.string_of_uint]; rewrite u_cons; cbn [fold_left]; cbn [Pos.of_uint_acc]; rewrite <- IH; f_equal;
    match goal with |- context [Z.of_nat ?x] => let y := eval compute in (Z.of_nat x) in change (Z.of_nat x) with y end; lia.
Qed.
Lemma uint_value d : digits_value (u (NilEmpty.string_of_uint d)) = Z.of_uint d.
Proof.
  unfold digits_value, Z.of_uint. induction d as [|d IH|d IH|d IH|d IH|d IH|d IH|d IH|d IH|d IH|d IH]; [reflexivity|exact IH|..];
    cbn [NilEmpty.string_of_uint]; rewrite u_cons; cbn [fold_left];
    match goal with |- context [Z.of_nat ?x] => let y := eval compute in (Z.of_nat x) in change (Z.of_nat x) with y end;
    cbn; apply uint_acc.
Qed.
Lemma uint_digits d : Forall (fun c => 48 <= c <= 57) (u (NilEmpty.string_of_uint d)).
Proof.
  induction d; [constructor|..]; cbn [NilEmpty.string_of_uint]; rewrite u_cons; (constructor; [|assumption]);
    match goal with |- context [Z.of_nat ?x] => let y := eval compute in (Z.of_nat x) in change (Z.of_nat x) with y end; lia.
Qed.
Lemma nil_zero d : all_digits (u (NilZero.string_of_uint d)) /\ digits_value (u (NilZero.string_of_uint d)) = Z.of_uint d.
Proof.
  destruct d as [|d|d|d|d|d|d|d|d|d|d]; (split; [split; [discriminate|]|]);
    try (apply (uint_digits (_ d))); try (apply (uint_value (_ d))); try reflexivity.
  constructor; [cbn; lia|constructor].
Qed.
(** None, booleans and integers are substituted by the literal that evaluates to them, strings of the basic plane too. *)
Theorem C47_literal_partial : forall v,
  match v with VStr t => Forall (fun c => 0 <= c < 65536) t | _ => True end -> literal (formatted v) v.
Proof.
  intros [|b|z|t|r] H; cbn [formatted literal]; try reflexivity; try exact I.
  - unfold str_int, int_literal. pose proof (DecimalZ.of_to z) as E. destruct (Z.to_int z) as [d|d]; cbn [NilZero.string_of_int Z.of_int] in *; subst z.
    + left. destruct (nil_zero d) as [A B]. now rewrite B.
    + right. exists (u (NilZero.string_of_uint d)). destruct (nil_zero d) as [A B]. rewrite B. now split.
  - exists (flat_map json_char t ++ [34]). split; [reflexivity|]. intros rest.
    destruct (C47_string_reads_back_partial t rest H) as (body & E & R).
    assert (X : body = flat_map json_char t ++ [34]) by (injection E as E; symmetry; exact E). now subst body.
Qed.

(** ** Substitution *)
(** A template: a text, then placeholders each followed by a text. *)
Definition template := (text * list (text * text))%type.
Definition fill (value_of : text -> text) (T : template) : text :=
  fst T ++ flat_map (fun np => value_of (fst np) ++ snd np) (snd T).
Definition written : template -> text := fill (fun n => u "#" ++ n ++ u "#").
(** Names are identifiers; texts contain no #; between two placeholders there is at least one
    character that cannot occur in a name. *)
Definition ident_char (c : Z) : Prop :=
  48 <= c <= 57 \/ 65 <= c <= 90 \/ c = 95 \/ 97 <= c <= 122 \/ 128 <= c.
Definition ident (n : text) : Prop := n <> [] /\ Forall ident_char n.
Definition no_hash (t : text) : Prop := ~ In 35 t.
Inductive separated : list (text * text) -> Prop :=
| sep_nil : separated []
| sep_last : forall n p, ident n -> no_hash p -> separated [(n, p)]
| sep_cons : forall n p l, ident n -> no_hash p -> (exists c, In c p /\ ~ ident_char c) -> separated l -> separated ((n, p) :: l).
Definition well_formed (T : template) : Prop := no_hash (fst T) /\ separated (snd T).
Fixpoint lookup (n : text) (vars : list (text * value)) : option value :=
  match vars with [] => None | (m, v) :: vars => if teqb n m then Some v else lookup n vars end.
(** What each placeholder becomes: the formatted value of the variable; unknown ones stay. *)
Definition replaced (vars : list (text * value)) (n : text) : text :=
  match lookup n vars with Some v => formatted v | None => u "#" ++ n ++ u "#" end.

Lemma teqb_eq a b : teqb a b = true <-> a = b.
Proof.
  revert b. induction a as [|x a IH]; intros [|y b]; cbn [teqb]; split; try congruence.
  - intros E. apply andb_true_iff in E as [E1 E2]. apply Z.eqb_eq in E1. apply IH in E2. congruence.
  - intros E. injection E as -> ->. rewrite Z.eqb_refl. cbn. now apply IH.
Qed.
Lemma ident_no_hash n : ident n -> no_hash n.
Proof. intros [_ F] I. rewrite Forall_forall in F. apply F in I. unfold ident_char in I. lia. Qed.
Lemma starts_app p s : starts p (p ++ s) = true.
Proof. induction p as [|x p IH]; cbn [starts app]; [reflexivity|]. now rewrite Z.eqb_refl. Qed.
Lemma starts_inv p s : starts p s = true -> exists r, s = p ++ r.
Proof.
  revert s. induction p as [|x p IH]; intros s E; [exists s; reflexivity|]. destruct s as [|y s]; [discriminate|].
  cbn [starts] in E. apply andb_true_iff in E as [E1 E2]. apply Z.eqb_eq in E1. subst y. destruct (IH _ E2) as [r ->]. now exists r.
Qed.
Lemma go_skip old new t s : replace_go old new (length t) (t ++ s) = replace_go old new 0 s.
Proof. induction t as [|c t IH]; cbn [length app replace_go]; [reflexivity|exact IH]. Qed.
Lemma go_match old new s : old <> [] -> replace_go old new 0 (old ++ s) = new ++ replace_go old new 0 s.
Proof.
  destruct old as [|x old]; [congruence|]. intros _.
  change (replace_go (x :: old) new 0 ((x :: old) ++ s)) with
    (if starts (x :: old) ((x :: old) ++ s) then new ++ replace_go (x :: old) new (length old) (old ++ s) else x :: replace_go (x :: old) new 0 (old ++ s)).
  rewrite starts_app, go_skip. reflexivity.
Qed.
Lemma go_plain v new t s : no_hash t -> replace_go (placeholder v) new 0 (t ++ s) = t ++ replace_go (placeholder v) new 0 s.
Proof.
  induction t as [|c t IH]; intros N; [reflexivity|]. cbn [app]. cbn [replace_go].
  replace (starts (placeholder v) (c :: t ++ s)) with false.
  - f_equal. apply IH. intros I. apply N. now right.
  - symmetry. unfold placeholder. cbn [starts]. destruct (Z.eqb_spec 35 c) as [<-|]; [|reflexivity]. exfalso. apply N. now left.
Qed.
(** Two texts without #, each followed by a # *)
Lemma split_hash a b r s : no_hash a -> no_hash b -> a ++ 35 :: r = b ++ 35 :: s -> a = b.
Proof.
  revert b. induction a as [|x a IH]; intros b A B E.
  - destruct b as [|y b]; [reflexivity|]. cbn in E. injection E as <- _. exfalso. apply B. now left.
  - destruct b as [|y b]; cbn in E; injection E as -> E; [exfalso; apply A; now left|].
    f_equal. eapply IH; eauto; intros I; [apply A|apply B]; now right.
Qed.
Lemma go_nomatch v new r : (forall s, r <> v ++ 35 :: s) -> replace_go (placeholder v) new 0 (35 :: r) = 35 :: replace_go (placeholder v) new 0 r.
Proof.
  intros N. cbn [replace_go]. destruct (starts (placeholder v) (35 :: r)) eqn:E; [|reflexivity].
  exfalso. apply starts_inv in E as [s E]. unfold placeholder in E. cbn [app] in E. injection E as E.
  rewrite <- app_assoc in E. exact (N s E).
Qed.
Definition subst1 (v f : text) (n : text) : text := if teqb n v then f else placeholder n.
(** One pass over the placeholders. *)
Lemma go_template v f l : ident v -> separated l ->
  replace_go (placeholder v) f 0 (flat_map (fun np => placeholder (fst np) ++ snd np) l)
  = flat_map (fun np => subst1 v f (fst np) ++ snd np) l.
Proof.
  intros V S. induction S as [|n p Hn Np|n p l Hn Np Sp S IH].
  - reflexivity.
  - cbn [flat_map fst snd]. rewrite !app_nil_r. unfold subst1. destruct (teqb n v) eqn:E.
    + apply teqb_eq in E. subst n. rewrite go_match by (unfold placeholder; discriminate).
      f_equal. rewrite <- (app_nil_r p) at 1. rewrite go_plain by auto. cbn. apply app_nil_r.
    + unfold placeholder at 2 3. cbn [app]. rewrite <- !app_assoc. rewrite go_nomatch.
      * f_equal. rewrite go_plain by (now apply ident_no_hash). f_equal. cbn [app]. rewrite go_nomatch.
        -- f_equal. rewrite <- (app_nil_r p) at 1. rewrite go_plain by auto. cbn. apply app_nil_r.
        -- intros s E'. assert (I : In 35 p) by (rewrite E'; apply in_or_app; right; now left). contradiction.
      * intros s E'. cbn [app] in E'. apply split_hash in E'; try (now apply ident_no_hash). subst n.
        assert (X : teqb v v = true) by (now apply teqb_eq). congruence.
  - cbn [flat_map fst snd]. unfold subst1 at 1. destruct (teqb n v) eqn:E.
    + apply teqb_eq in E. subst n. rewrite <- !app_assoc. rewrite go_match by (unfold placeholder; discriminate).
      f_equal. rewrite go_plain by auto. now rewrite IH.
    + unfold placeholder at 2 4. cbn [app]. rewrite <- !app_assoc. rewrite go_nomatch.
      * f_equal. rewrite go_plain by (now apply ident_no_hash). f_equal. cbn [app]. rewrite go_nomatch.
        -- f_equal. rewrite go_plain by auto. now rewrite IH.
        -- intros s E'. destruct Sp as (c & Ic & Nc). destruct V as [_ V]. rewrite Forall_forall in V.
           assert (X : p = v \/ exists q, p = v ++ 35 :: q \/ False).
           { destruct l as [|(n2, p2) l].
             - exfalso. cbn [flat_map] in E'. rewrite app_nil_r in E'. apply Np. rewrite E'. apply in_or_app. right. now left.
             - left. cbn [flat_map fst snd] in E'. unfold placeholder at 1 in E'. cbn [app] in E'.
               apply split_hash in E'; auto. intros I. apply V in I. unfold ident_char in I. lia. }
           destruct X as [->|(q & [->|[]])]; [apply Nc, V, Ic|]. apply Np. apply in_or_app. right. now left.
      * intros s E'. cbn [app] in E'. apply split_hash in E'; try (now apply ident_no_hash). subst n.
        assert (X : teqb v v = true) by (now apply teqb_eq). congruence.
Qed.
(** The template left after one variable. *)
Fixpoint merge (v f : text) (l : list (text * text)) : text * list (text * text) :=
  match l with
  | [] => ([], [])
  | (n, p) :: l =>
      let (q, m) := merge v f l in
      if teqb n v then (f ++ p ++ q, m) else ([], (n, p ++ q) :: m)
  end.
Lemma merge_fill v f value_of l :
  flat_map (fun np => (if teqb (fst np) v then f else value_of (fst np)) ++ snd np) l
  = fst (merge v f l) ++ flat_map (fun np => value_of (fst np) ++ snd np) (snd (merge v f l)).
Proof.
  induction l as [|(n, p) l IH]; [reflexivity|]. cbn [flat_map merge fst snd]. rewrite IH. destruct (merge v f l) as [q m].
  destruct (teqb n v); cbn [fst snd flat_map app]; rewrite <- ?app_assoc; reflexivity.
Qed.
Lemma no_hash_app a b : no_hash a -> no_hash b -> no_hash (a ++ b).
Proof. intros A B I. apply in_app_or in I as [I|I]; auto. Qed.
Lemma merge_sep v f l : no_hash f -> separated l ->
  no_hash (fst (merge v f l)) /\ separated (snd (merge v f l)).
Proof.
  intros F S. induction S as [|n p Hn Np|n p l Hn Np Sp S [H1 H2]]; cbn [merge].
  - split; [intros []|constructor].
  - destruct (teqb n v); cbn [fst snd].
    + split; [|constructor]. rewrite app_nil_r. now apply no_hash_app.
    + rewrite app_nil_r. split; [intros []|]. now constructor.
  - destruct (merge v f l) as [q m]. cbn [fst snd] in *. destruct (teqb n v); cbn [fst snd].
    + split; [|exact H2]. repeat apply no_hash_app; auto.
    + split; [intros []|]. apply sep_cons; auto; [now apply no_hash_app|].
      destruct Sp as (c & I & N). exists c. split; auto. apply in_or_app. now left.
Qed.
Lemma not_contained s p new : contains p s = false -> replace s p new = s.
Proof.
  unfold replace. intros E. induction s as [|c s IH]; [reflexivity|]. cbn [contains] in E. apply orb_false_iff in E as [E1 E2].
  cbn [replace_go]. rewrite E1. f_equal. auto.
Qed.

(** Every placeholder of a known variable becomes its formatted value, everything else stays. *)
Theorem C47_substitution_partial : forall T vars, well_formed T ->
  Forall (fun nv => ident (fst nv) /\ no_hash (formatted (snd nv))) vars ->
  substitute_variables (written T) vars = fill (replaced vars) T.
Proof.
  intros T vars W F. revert T W. induction F as [|(v, x) vars [V H] F IH]; intros [h l] [W1 W2]; cbn [fst snd] in *.
  - reflexivity.
  - cbn [substitute_variables].
    assert (E : (if contains (placeholder v) (written (h, l)) then replace (written (h, l)) (placeholder v) (formatted x) else written (h, l))
      = written (h ++ fst (merge v (formatted x) l), snd (merge v (formatted x) l))).
    { transitivity (replace (written (h, l)) (placeholder v) (formatted x)).
      { destruct (contains (placeholder v) (written (h, l))) eqn:C; [reflexivity|]. symmetry. now apply not_contained. }
      unfold replace, written, fill. cbn [fst snd]. rewrite go_plain by auto. rewrite <- app_assoc. f_equal.
      change (fun np : text * text => (u "#" ++ fst np ++ u "#") ++ snd np) with (fun np : text * text => placeholder (fst np) ++ snd np).
      rewrite go_template by auto. apply (merge_fill v (formatted x) placeholder). }
    rewrite E. rewrite IH.
    + unfold fill. cbn [fst snd]. rewrite <- app_assoc. f_equal. rewrite <- merge_fill.
      apply flat_map_ext. intros [n p]. cbn [fst snd]. f_equal. unfold replaced. cbn [lookup].
      destruct (teqb n v) eqn:D; reflexivity.
    + destruct (merge_sep v (formatted x) l H W2) as [M1 M2]. split; cbn [fst snd]; auto. now apply no_hash_app.
Qed.
Ltac name_tac := split; [discriminate|]; apply Forall_forall; let c := fresh in let I := fresh in intros c I;
  vm_compute in I; repeat (destruct I as [<-|I]; [unfold ident_char; lia|]); destruct I.
(** The same for all values: refuted, a value that looks like a placeholder is substituted again. *)
Theorem C47_substitution_refuted : ~ forall T vars, well_formed T -> Forall (fun nv => ident (fst nv)) vars ->
  substitute_variables (written T) vars = fill (replaced vars) T.
Proof.
  intros C.
  specialize (C (u "", [(u "a", u " == ""x""")]) [(u "a", VStr (u "#b#")); (u "b", VInt 1)]).
  assert (W : well_formed (u "", [(u "a", u " == ""x""")])).
  { split; [intros []|]. constructor; [name_tac|].
    intros I. vm_compute in I. repeat (destruct I as [I|I]; [discriminate|]). exact I. }
  assert (F : Forall (fun nv : text * value => ident (fst nv)) [(u "a", VStr (u "#b#")); (u "b", VInt 1)]).
  { constructor; [name_tac|]. constructor; [name_tac|constructor]. }
  specialize (C W F). vm_compute in C. discriminate.
Qed.

(** ** The meaning of custom markers *)
(** Decimal digits and their value. *)
Inductive decimal : text -> N -> Prop :=
| dec_one : forall c, 48 <= c <= 57 -> decimal [c] (Z.to_N (c - 48))
| dec_more : forall d n c, decimal d n -> 48 <= c <= 57 -> decimal (d ++ [c]) (10 * n + Z.to_N (c - 48)).
(** Letter by letter equal to a word written in small letters, up to capitals. *)
Definition word (t w : text) : Prop := Forall2 (fun c d => c = d \/ (65 <= c <= 90 /\ c + 32 = d)) t w.
(** "12.1": two or more decimal numbers with dots between them. *)
Inductive dotted : text -> list N -> Prop :=
| dot_two : forall a b n m, decimal a n -> decimal b m -> dotted (a ++ u "." ++ b) [n; m]
| dot_more : forall a t n l, decimal a n -> dotted t l -> dotted (a ++ u "." ++ t) (n :: l).
(** Only digits and dots, at least one dot, but not a version: "1.", ".", "1..2". *)
Definition malformed (t : text) : Prop :=
  In 46 t /\ Forall (fun c => 48 <= c <= 57 \/ c = 46) t /\ forall l, ~ dotted t l.
(** What a value of the environment stands for: the words true and false for booleans, dotted
    numbers for versions. *)
Inductive stands_for : value -> value -> Prop :=
| sf_true : forall t, word t (u "true") -> stands_for (VStr t) (VBool true)
| sf_false : forall t, word t (u "false") -> stands_for (VStr t) (VBool false)
| sf_version : forall t l, dotted t l -> stands_for (VStr t) (VVer l)
| sf_other : forall v, (forall t, v = VStr t -> ~ word t (u "true") /\ ~ word t (u "false") /\ (forall l, ~ dotted t l) /\ ~ malformed t) ->
    stands_for v v.
(** What an operand of a comparison is compared as: in addition "sm_80" as 80. *)
Inductive compared_as : value -> value -> Prop :=
| ca_arch : forall d n, decimal d n -> compared_as (VStr (u "sm_" ++ d)) (VInt (Z.of_N n))
| ca_other : forall v w, stands_for v w -> (forall d n, v = VStr (u "sm_" ++ d) -> ~ decimal d n) -> compared_as v w.

(** The orders: numbers (True is 1), texts by code point, versions number by number, missing ones
    being 0. *)
Inductive num : value -> Z -> Prop :=
| num_int : forall z, num (VInt z) z
| num_true : num (VBool true) 1
| num_false : num (VBool false) 0.
Inductive text_less : text -> text -> Prop :=
| tl_prefix : forall a c b, text_less a (a ++ c :: b)
| tl_differ : forall a x y b c, x < y -> text_less (a ++ x :: b) (a ++ y :: c).
Definition ver_less (a b : list N) : Prop :=
  exists i, (nth i a 0 < nth i b 0)%N /\ forall j, (j < i)%nat -> nth j a 0%N = nth j b 0%N.
Definition ver_same (a b : list N) : Prop := forall i, nth i a 0%N = nth i b 0%N.
Inductive comparable : value -> value -> Prop :=
| cp_num : forall a b x y, num a x -> num b y -> comparable a b
| cp_text : forall s t, comparable (VStr s) (VStr t)
| cp_ver : forall a b, comparable (VVer a) (VVer b).
Inductive less : value -> value -> Prop :=
| ls_num : forall a b x y, num a x -> num b y -> x < y -> less a b
| ls_text : forall s t, text_less s t -> less (VStr s) (VStr t)
| ls_ver : forall a b, ver_less a b -> less (VVer a) (VVer b).
Inductive same : value -> value -> Prop :=
| sm_none : same VNone VNone
| sm_num : forall a b x, num a x -> num b x -> same a b
| sm_text : forall s, same (VStr s) (VStr s)
| sm_ver : forall a b, ver_same a b -> same (VVer a) (VVer b).
(** [holds o a b r]: the comparison is defined and its result is [r]. *)
Inductive holds : cmp -> value -> value -> bool -> Prop :=
| h_eq : forall a b, same a b -> holds Eq a b true
| h_eqF : forall a b, ~ same a b -> holds Eq a b false
| h_ne : forall a b, ~ same a b -> holds NotEq a b true
| h_neF : forall a b, same a b -> holds NotEq a b false
| h_lt : forall a b, less a b -> holds Lt a b true
| h_ltF : forall a b, comparable a b -> ~ less a b -> holds Lt a b false
| h_gt : forall a b, less b a -> holds Gt a b true
| h_gtF : forall a b, comparable a b -> ~ less b a -> holds Gt a b false
| h_le : forall a b, comparable a b -> ~ less b a -> holds LtE a b true
| h_leF : forall a b, less b a -> holds LtE a b false
| h_ge : forall a b, comparable a b -> ~ less a b -> holds GtE a b true
| h_geF : forall a b, less a b -> holds GtE a b false.
Definition is_true (v : value) : Prop :=
  v <> VNone /\ v <> VBool false /\ v <> VInt 0 /\ v <> VStr [].
(** Python's reading of an expression: and, or and chained comparisons stop as soon as their
    result is known. *)
Inductive means (env : text -> value) : expr -> value -> Prop :=
| m_and : forall e l v, all_of env e l v -> means env (BoolOp true e l) v
| m_or : forall e l v, any_of env e l v -> means env (BoolOp false e l) v
| m_not_true : forall e v, means env e v -> is_true v -> means env (Not e) (VBool false)
| m_not_false : forall e v, means env e v -> ~ is_true v -> means env (Not e) (VBool true)
| m_compare : forall e l v a r, means env e v -> compared_as v a -> chain env a l r -> means env (Compare e l) (VBool r)
| m_name : forall n v, stands_for (env n) v -> means env (Name n) v
| m_const : forall v, means env (Const v) v
with all_of (env : text -> value) : expr -> list expr -> value -> Prop :=
| ao_last : forall e v, means env e v -> all_of env e [] v
| ao_stop : forall e f l v, means env e v -> ~ is_true v -> all_of env e (f :: l) v
| ao_go : forall e f l v w, means env e v -> is_true v -> all_of env f l w -> all_of env e (f :: l) w
with any_of (env : text -> value) : expr -> list expr -> value -> Prop :=
| yo_last : forall e v, means env e v -> any_of env e [] v
| yo_stop : forall e f l v, means env e v -> is_true v -> any_of env e (f :: l) v
| yo_go : forall e f l v w, means env e v -> ~ is_true v -> any_of env f l w -> any_of env e (f :: l) w
with chain (env : text -> value) : value -> list (cmp * expr) -> bool -> Prop :=
| ch_end : forall a, chain env a [] true
| ch_false : forall a o e l v b, means env e v -> compared_as v b -> holds o a b false -> chain env a ((o, e) :: l) false
| ch_true : forall a o e l v b r, means env e v -> compared_as v b -> holds o a b true -> chain env b l r -> chain env a ((o, e) :: l) r.

(** ** Proofs about the meaning *)
Lemma is_true_truthy v : is_true v <-> truthy v = true.
Proof.
  unfold is_true. destruct v as [|[|]|z|[|c t]|l]; cbn [truthy]; split; try (intros; repeat split; congruence); try (intros (H1 & H2 & H3 & H4); congruence); try discriminate.
  - intros (_ & _ & H & _). apply negb_true_iff, Z.eqb_neq. congruence.
  - intros H. apply negb_true_iff, Z.eqb_neq in H. repeat split; congruence.
Qed.
Lemma not_true_falsy v : ~ is_true v <-> truthy v = false.
Proof. rewrite is_true_truthy. destruct (truthy v); split; congruence. Qed.

(** Digits *)
Lemma digit_iff c : is_digit c = true <-> 48 <= c <= 57.
Proof. unfold is_digit. rewrite andb_true_iff, !Z.leb_le. tauto. Qed.
Lemma decimal_iff d n : decimal d n <-> d <> [] /\ forallb is_digit d = true /\ number d = n.
Proof.
  split.
  - induction 1 as [c H|d n c D [N [F E]] H].
    + split; [discriminate|]. split; [cbn [forallb]; now rewrite (proj2 (digit_iff c))|reflexivity].
    + split; [destruct d; discriminate|]. split.
      * rewrite forallb_app, F. cbn [forallb]. now rewrite (proj2 (digit_iff c)).
      * unfold number in *. rewrite fold_left_app, E. reflexivity.
  - intros (N & F & <-). destruct (exists_last N) as (d' & c & ->). clear N. revert c F.
    induction d' as [|x d' IH] using rev_ind; intros c F.
    + cbn [app forallb] in F. apply andb_true_iff in F as [F _]. cbn [app]. apply digit_iff in F. now constructor.
    + rewrite forallb_app in F. apply andb_true_iff in F as [F1 F2]. cbn [forallb] in F2. apply andb_true_iff in F2 as [F2 _].
      apply digit_iff in F2. unfold number. rewrite fold_left_app. cbn [fold_left]. apply dec_more; auto. apply IH. exact F1.
Qed.
Lemma split_dot_app a t : ~ In 46 a -> split_dot (a ++ 46 :: t) = a :: split_dot t.
Proof.
  induction a as [|c a IH]; intros N; [reflexivity|]. cbn [app split_dot]. destruct (Z.eqb_spec c 46) as [->|]; [exfalso; apply N; now left|].
  rewrite IH; [reflexivity|]. intros I. apply N. now right.
Qed.
Lemma split_dot_none a : ~ In 46 a -> split_dot a = [a].
Proof.
  induction a as [|c a IH]; intros N; [reflexivity|]. cbn [split_dot]. destruct (Z.eqb_spec c 46) as [->|]; [exfalso; apply N; now left|].
  rewrite IH; [reflexivity|]. intros I. apply N. now right.
Qed.
Lemma split_dot_ne t : split_dot t <> [].
Proof. destruct t as [|c t]; [discriminate|]. cbn [split_dot]. destruct (c =? 46); [discriminate|]. destruct (split_dot t); discriminate. Qed.
Lemma decimal_no_dot d n : decimal d n -> ~ In 46 d.
Proof.
  intros D I. apply decimal_iff in D as (_ & F & _). rewrite forallb_forall in F. apply F in I. discriminate.
Qed.
Lemma dotted_split t l : dotted t l ->
  (1 < length (split_dot t))%nat /\ forallb (forallb is_digit) (split_dot t) = true /\ forallb nonempty (split_dot t) = true /\ map number (split_dot t) = l.
Proof.
  induction 1 as [a b n m A B|a t n l A D IH].
  - change (a ++ u "." ++ b) with (a ++ 46 :: b). rewrite split_dot_app by (eapply decimal_no_dot; eauto).
    rewrite split_dot_none by (eapply decimal_no_dot; eauto).
    apply decimal_iff in A as (A1 & A2 & <-). apply decimal_iff in B as (B1 & B2 & <-).
    cbn [length forallb map]. rewrite A2, B2. destruct a; [congruence|]. destruct b; [congruence|]. cbn. repeat split; lia.
  - change (a ++ u "." ++ t) with (a ++ 46 :: t). rewrite split_dot_app by (eapply decimal_no_dot; eauto).
    apply decimal_iff in A as (A1 & A2 & <-). destruct IH as (I1 & I2 & I3 & <-). cbn [length forallb map]. rewrite A2, I2, I3.
    destruct a; [congruence|]. cbn [nonempty andb]. repeat split. lia.
Qed.
Lemma split_dot_cases t : (split_dot t = [t] /\ ~ In 46 t) \/ exists a t', t = a ++ 46 :: t' /\ ~ In 46 a /\ split_dot t = a :: split_dot t'.
Proof.
  induction t as [|c t IH]; [left; split; [reflexivity|intros []]|]. cbn [split_dot]. destruct (Z.eqb_spec c 46) as [->|N].
  - right. exists [], t. repeat split. intros [].
  - destruct IH as [(E & NI)|(a & t' & -> & NI & E)].
    + left. rewrite E. split; [reflexivity|]. intros [I|I]; congruence.
    + right. rewrite E. exists (c :: a), t'. repeat split. intros [I|I]; congruence.
Qed.
Lemma split_dotted t : (1 < length (split_dot t))%nat -> forallb (forallb is_digit) (split_dot t) = true -> forallb nonempty (split_dot t) = true ->
  dotted t (map number (split_dot t)).
Proof.
  remember (length t) as k eqn:K. assert (K' : (length t <= k)%nat) by lia. clear K. revert t K'.
  induction k as [|k IH]; intros t K L F NE.
  - destruct t; [cbn in L; lia|cbn in K; lia].
  - destruct (split_dot_cases t) as [(E & _)|(a & t' & -> & NI & E)]; [rewrite E in L; cbn in L; lia|].
    rewrite E in F, NE |- *. cbn [forallb map] in *. apply andb_true_iff in F as [F1 F2]. apply andb_true_iff in NE as [N1 N2].
    assert (DA : decimal a (number a)) by (apply decimal_iff; repeat split; auto; destruct a; [discriminate|discriminate]).
    change (a ++ 46 :: t') with (a ++ u "." ++ t').
    destruct (split_dot_cases t') as [(E' & _)|(b & t'' & E1 & NI' & E')].
    + rewrite E' in *. cbn [map forallb] in *. apply andb_true_iff in F2 as [F2 _]. apply andb_true_iff in N2 as [N2 _].
      apply dot_two; auto. apply decimal_iff. repeat split; auto. destruct t'; discriminate.
    + apply dot_more; auto. apply IH; auto.
      * rewrite app_length in K. cbn [length] in K. lia.
      * rewrite E'. cbn [length]. pose proof (split_dot_ne t''). destruct (split_dot t''); [congruence|cbn; lia].
Qed.
Lemma split_chars t : forallb (forallb is_digit) (split_dot t) = true <-> Forall (fun c => 48 <= c <= 57 \/ c = 46) t.
Proof.
  induction t as [|c t IH]; [split; [constructor|reflexivity]|]. cbn [split_dot]. destruct (Z.eqb_spec c 46) as [->|N].
  - cbn [forallb andb]. rewrite IH. split; [intros H; constructor; auto|intros H; now inversion H].
  - pose proof (split_dot_ne t). destruct (split_dot t) as [|p ps]; [congruence|]. cbn [forallb] in *.
    rewrite <- andb_assoc, andb_true_iff, IH, digit_iff. split.
    + intros [A B]. constructor; auto.
    + intros H'. inversion H' as [|? ? A B]; subst. split; auto. destruct A; [auto|congruence].
Qed.
Lemma split_two t : (1 < length (split_dot t))%nat <-> In 46 t.
Proof.
  destruct (split_dot_cases t) as [(E & N)|(a & t' & -> & _ & E)]; rewrite E; cbn [length].
  - split; [lia|tauto].
  - pose proof (split_dot_ne t'). destruct (split_dot t'); [congruence|]. cbn [length]. split; [|lia].
    intros _. apply in_or_app. right. now left.
Qed.
Lemma word_lower t w : Forall (fun d => ~ 65 <= d <= 90) w -> (word t w <-> teqb (lower t) w = true).
Proof.
  intros L. rewrite teqb_eq. unfold word, lower. revert t. induction L as [|d w D L IH]; intros t.
  - destruct t; cbn [map]; split; try discriminate; auto; intros H; now inversion H.
  - destruct t as [|c t]; cbn [map]; [split; [intros H; inversion H|discriminate]|].
    destruct ((65 <=? c) && (c <=? 90)) eqn:E.
    + apply andb_true_iff in E as [E1 E2]. apply Z.leb_le in E1, E2. split.
      * intros H. inversion H as [|? ? ? ? A B]; subst. apply IH in B. rewrite B. destruct A as [->|[_ <-]]; [lia|reflexivity].
      * intros H. injection H as H1 H2. constructor; [right; lia|]. now apply IH.
    + split.
      * intros H. inversion H as [|? ? ? ? A B]; subst. apply IH in B. rewrite B. destruct A as [->|[A _]]; [reflexivity|].
        exfalso. apply andb_false_iff in E as [E|E]; apply Z.leb_gt in E; lia.
      * intros H. injection H as H1 H2. constructor; [left; auto|]. now apply IH.
Qed.
Ltac small := apply Forall_forall; let c := fresh in let I := fresh in intros c I; vm_compute in I; repeat (destruct I as [<-|I]; [lia|]); destruct I.
Lemma word_true t : word t (u "true") <-> teqb (lower t) (u "true") = true.
Proof. apply word_lower. small. Qed.
Lemma word_false t : word t (u "false") <-> teqb (lower t) (u "false") = true.
Proof. apply word_lower. small. Qed.
Lemma dot_not_word t w : In 46 t -> ~ In 46 w -> teqb (lower t) w = false.
Proof.
  intros I N. destruct (teqb (lower t) w) eqn:E; [|reflexivity]. apply teqb_eq in E. subst w. exfalso. apply N.
  unfold lower. apply in_map_iff. exists 46. auto.
Qed.
Lemma dotted_dot t l : dotted t l -> In 46 t.
Proof. intros D. apply dotted_split in D as [L _]. now apply split_two. Qed.
Ltac notin := let I := fresh in intros I; vm_compute in I; repeat (destruct I as [I|I]; [discriminate|]); exact I.

Lemma normalize_iff v w : normalize_value v = Ok w <-> stands_for v w.
Proof.
  split.
  - destruct v as [| | |t|]; cbn [normalize_value]; try (intros E; injection E as <-; apply sf_other; discriminate).
    destruct (teqb (lower t) (u "true")) eqn:T; [intros E; injection E as <-; constructor; now apply word_true|].
    destruct (teqb (lower t) (u "false")) eqn:F; [intros E; injection E as <-; constructor; now apply word_false|].
    destruct ((1 <? length (split_dot t))%nat && forallb (forallb is_digit) (split_dot t)) eqn:P.
    + apply andb_true_iff in P as [P1 P2]. apply Nat.ltb_lt in P1. destruct (forallb nonempty (split_dot t)) eqn:N; [|discriminate].
      intros E. injection E as <-. constructor. now apply split_dotted.
    + intros E. injection E as <-. apply sf_other. intros t' E. injection E as <-.
      split; [intros W; apply word_true in W; congruence|]. split; [intros W; apply word_false in W; congruence|]. split.
      * intros l D. apply dotted_split in D as (D1 & D2 & _). apply Nat.ltb_lt in D1. rewrite D1, D2 in P. discriminate.
      * intros (M1 & M2 & _). apply split_two, Nat.ltb_lt in M1. apply split_chars in M2. rewrite M1, M2 in P. discriminate.
  - intros [t W|t W|t l D|v' H].
    + cbn [normalize_value]. apply word_true in W. now rewrite W.
    + cbn [normalize_value]. pose proof W as W'. apply word_false in W. rewrite W.
      destruct (teqb (lower t) (u "true")) eqn:T; [|reflexivity]. apply teqb_eq in T, W. rewrite T in W. discriminate.
    + cbn [normalize_value]. pose proof (dotted_dot _ _ D) as I. rewrite !dot_not_word by (auto; notin).
      apply dotted_split in D as (D1 & D2 & D3 & <-). apply Nat.ltb_lt in D1. now rewrite D1, D2, D3.
    + destruct v' as [| | |t|]; try reflexivity. destruct (H t eq_refl) as (H1 & H2 & H3 & H4). cbn [normalize_value].
      rewrite word_true in H1. rewrite word_false in H2.
      destruct (teqb (lower t) (u "true")); [congruence|]. destruct (teqb (lower t) (u "false")); [congruence|].
      destruct ((1 <? length (split_dot t))%nat && forallb (forallb is_digit) (split_dot t)) eqn:P; [|reflexivity].
      exfalso. apply H4. apply andb_true_iff in P as [P1 P2]. apply Nat.ltb_lt, split_two in P1. apply split_chars in P2. now split.
Qed.

Lemma arch_no_dot d n : decimal d n -> normalize_value (VStr (u "sm_" ++ d)) = Ok (VStr (u "sm_" ++ d)).
Proof.
  intros D. apply normalize_iff, sf_other. intros t E. injection E as <-.
  assert (NW : forall w, ~ In 115 w \/ nth 0 w 0 <> 115 -> Forall (fun c => 97 <= c) w -> ~ word (u "sm_" ++ d) w).
  { intros w H1 H2 W. change (u "sm_" ++ d) with (115 :: 109 :: 95 :: d) in W. inversion W as [|? y ? w' A B]; subst. cbn [nth] in H1.
    assert (y = 115) by lia. subst. destruct H1 as [H1|H1]; [apply H1; now left|congruence]. }
  split; [apply NW; [right; discriminate|small]|]. split; [apply NW; [right; discriminate|small]|].
  assert (ND : ~ In 46 (u "sm_" ++ d)).
  { intros I. apply in_app_or in I as [I|I]; [revert I; notin|]. eapply decimal_no_dot; eauto. }
  split; [intros l X; apply ND; eapply dotted_dot; eauto|]. intros [M _]. contradiction.
Qed.
Lemma arch_eq d : maybe_parse_cuda_arch (VStr (u "sm_" ++ d)) = if nonempty d && forallb is_digit d then VInt (Z.of_N (number d)) else VStr (u "sm_" ++ d).
Proof. cbn [maybe_parse_cuda_arch]. rewrite starts_app. reflexivity. Qed.
Lemma compared_iff v a : operand (Ok v) = Ok a <-> compared_as v a.
Proof.
  cbn [operand]. split.
  - destruct (normalize_value v) as [w|x] eqn:N; [|discriminate]. intros E. injection E as <-.
    pose proof N as N0. apply normalize_iff in N.
    destruct w as [| | |t|]; try (apply ca_other; [exact N|]; intros d n -> D; rewrite (arch_no_dot _ _ D) in N0; discriminate).
    assert (v = VStr t) by (inversion N; congruence). subst v.
    destruct (starts (u "sm_") t) eqn:S.
    + apply starts_inv in S as [d ->]. rewrite arch_eq.
      destruct (nonempty d && forallb is_digit d) eqn:G.
      * apply andb_true_iff in G as [G1 G2]. apply (ca_arch d). apply decimal_iff. repeat split; auto. destruct d; discriminate.
      * apply ca_other; [exact N|]. intros d' n E D. assert (d = d') by (apply (app_inv_head (u "sm_")); congruence). subst d'.
        apply decimal_iff in D as (D1 & D2 & _). rewrite D2 in G. destruct d; [congruence|discriminate G].
    + cbn [maybe_parse_cuda_arch]. rewrite S. apply ca_other; [exact N|]. intros d n E _.
      assert (t = u "sm_" ++ d) by congruence. subst t. rewrite starts_app in S. discriminate.
  - intros [d n D|v' w S H].
    + rewrite (arch_no_dot _ _ D), arch_eq.
      apply decimal_iff in D as (D1 & D2 & <-). rewrite D2. destruct d; [congruence|reflexivity].
    + pose proof S as S0. apply normalize_iff in S. rewrite S. f_equal. destruct w as [| | |t|]; try reflexivity.
      assert (v' = VStr t) by (inversion S0; congruence). subst v'.
      destruct (starts (u "sm_") t) eqn:P.
      * apply starts_inv in P as [d ->]. rewrite arch_eq.
        destruct (nonempty d && forallb is_digit d) eqn:G; [|reflexivity]. exfalso. apply andb_true_iff in G as [G1 G2].
        apply (H d (number d) eq_refl). apply decimal_iff. repeat split; auto. destruct d; discriminate.
      * cbn [maybe_parse_cuda_arch]. now rewrite P.
Qed.

(** Orders *)
Lemma lex_gt a b : lex a b = Datatypes.Gt <-> lex b a = Datatypes.Lt.
Proof.
  revert b. induction a as [|x a IH]; intros [|y b]; cbn [lex]; try (split; congruence).
  rewrite (Z.compare_antisym x y). destruct (x ?= y); cbn [CompOpp]; try (split; congruence). apply IH.
Qed.
Lemma lex_eq a b : lex a b = Datatypes.Eq <-> a = b.
Proof.
  revert b. induction a as [|x a IH]; intros [|y b]; cbn [lex]; try (split; congruence).
  destruct (Z.compare_spec x y) as [->|H|H].
  - rewrite IH. split; congruence.
  - split; [discriminate|intros E; injection E as -> _; lia].
  - split; [discriminate|intros E; injection E as -> _; lia].
Qed.
Lemma lex_lt a b : lex a b = Datatypes.Lt <-> text_less a b.
Proof.
  split.
  - revert b. induction a as [|x a IH]; intros [|y b]; cbn [lex]; try discriminate.
    + intros _. apply (tl_prefix [] y b).
    + destruct (Z.compare_spec x y) as [->|H|H]; try discriminate.
      * intros L. apply IH in L. destruct L as [a c b|a x' y' b c L]; [apply (tl_prefix (y :: a))|now apply (tl_differ (y :: a))].
      * intros _. now apply (tl_differ [] x y a b).
  - intros [p c q|p x y q r L]; induction p as [|z p IH]; cbn [app lex].
    + reflexivity.
    + now rewrite Z.compare_refl.
    + destruct (Z.compare_spec x y); [lia|reflexivity|lia].
    + now rewrite Z.compare_refl.
Qed.
Lemma text_total a b : text_less a b \/ a = b \/ text_less b a.
Proof.
  destruct (lex a b) eqn:E; [right; left; now apply lex_eq|left; now apply lex_lt|right; right; apply lex_lt; now apply lex_gt].
Qed.
Lemma text_asym a b : text_less a b -> ~ text_less b a.
Proof. rewrite <- !lex_lt, <- lex_gt. congruence. Qed.
Lemma text_irrefl a : ~ text_less a a.
Proof. intros H. exact (text_asym _ _ H H). Qed.

(** Versions *)
Lemma strip0_nth l i : nth i (strip0 l) 0 = nth i l 0.
Proof.
  revert i. induction l as [|x l IH]; intros i; [reflexivity|]. cbn [strip0]. destruct (strip0 l) as [|y r] eqn:E.
  - assert (Z0 : forall j, nth j l 0 = 0) by (intros j; rewrite <- IH; now destruct j).
    destruct (Z.eqb_spec x 0) as [->|N]; destruct i as [|i]; cbn [nth]; auto; rewrite Z0; now destruct i.
  - destruct i as [|i]; cbn [nth]; auto. rewrite <- IH. reflexivity.
Qed.
Lemma strip0_zero l : (forall i, nth i (strip0 l) 0 = 0) -> strip0 l = [].
Proof.
  induction l as [|x l IH]; intros H; [reflexivity|]. cbn [strip0] in *. destruct (strip0 l) as [|y r] eqn:E.
  - destruct (Z.eqb_spec x 0) as [->|N]; [reflexivity|]. specialize (H 0%nat). cbn in H. congruence.
  - exfalso. assert (X : y :: r = []); [|discriminate]. apply IH. intros i. apply (H (S i)).
Qed.
Lemma first_nonzero l i : nth i l 0 <> 0 -> exists k, nth k l 0 <> 0 /\ forall j, (j < k)%nat -> nth j l 0 = 0.
Proof.
  induction i as [i IH] using lt_wf_ind. intros H.
  destruct (List.existsb (fun j => negb (nth j l 0 =? 0)) (seq 0 i)) eqn:E.
  - apply existsb_exists in E as (j & J & N). apply in_seq in J. apply negb_true_iff, Z.eqb_neq in N. apply (IH j); auto; lia.
  - exists i. split; auto. intros j L. destruct (Z.eq_dec (nth j l 0) 0); auto. exfalso.
    assert (X : existsb (fun j => negb (nth j l 0 =? 0)) (seq 0 i) = true); [|congruence].
    apply existsb_exists. exists j. split; [apply in_seq; lia|]. now apply negb_true_iff, Z.eqb_neq.
Qed.
Definition zless (a b : list Z) : Prop := exists i, nth i a 0 < nth i b 0 /\ forall j, (j < i)%nat -> nth j a 0 = nth j b 0.
Lemma strip0_cons x l : strip0 (x :: l) = match strip0 l with [] => if x =? 0 then [] else [x] | r => x :: r end.
Proof. reflexivity. Qed.
(** The part of a stripped list after its first element is stripped. *)
Lemma strip0_tail l x r : strip0 l = x :: r -> strip0 r = r.
Proof.
  revert x r. induction l as [|y l IH]; intros x r E; [discriminate|]. rewrite strip0_cons in E. destruct (strip0 l) as [|z r'] eqn:S.
  - destruct (y =? 0); [discriminate|]. injection E as _ <-. reflexivity.
  - injection E as -> <-. rewrite strip0_cons, (IH _ _ eq_refl). destruct r' as [|w r']; [|reflexivity].
    destruct (Z.eqb_spec z 0) as [->|]; [|reflexivity]. exfalso. clear IH.
    assert (X : strip0 l = []); [|congruence]. apply strip0_zero. intros i. rewrite S. destruct i as [|[|i]]; reflexivity.
Qed.
Lemma zless_tail x a b : zless a b -> zless (x :: a) (x :: b).
Proof. intros (i & L & J). exists (S i). split; [exact L|]. intros [|j] H; [reflexivity|]. apply (J j). lia. Qed.
Lemma lex_zless a b : strip0 b = b -> Forall (fun x => 0 <= x) b -> lex a b = Datatypes.Lt -> zless a b.
Proof.
  revert b. induction a as [|x a IH]; intros [|y b]; cbn [lex]; try discriminate; intros C P E.
  - assert (X : exists i, nth i (y :: b) 0 <> 0).
    { destruct (List.forallb (fun c => c =? 0) (y :: b)) eqn:F.
      - exfalso. rewrite forallb_forall in F. assert (Z0 : strip0 (y :: b) = []); [|rewrite C in Z0; discriminate].
        apply strip0_zero. intros i. rewrite C. destruct (Nat.lt_ge_cases i (length (y :: b))).
        + apply Z.eqb_eq, F, nth_In. auto.
        + now apply nth_overflow.
      - assert (G : exists c, In c (y :: b) /\ c <> 0).
        { revert F. generalize (y :: b). intros l. induction l as [|c l IHl]; cbn [forallb]; [discriminate|].
          intros F. destruct (Z.eqb_spec c 0); [|exists c; split; [now left|auto]]. destruct (IHl F) as (d & I & N). exists d. split; [now right|auto]. }
        destruct G as (c & I & N). destruct (In_nth _ _ 0 I) as (i & _ & <-). exists i. exact N. }
    destruct X as (i & N). destruct (first_nonzero _ _ N) as (k & K & J). exists k.
    replace (nth k [] 0) with 0 by (now destruct k). split.
    + assert (0 <= nth k (y :: b) 0); [|lia]. destruct (Nat.lt_ge_cases k (length (y :: b))).
      * rewrite Forall_forall in P. apply P, nth_In. auto.
      * rewrite nth_overflow by auto. lia.
    + intros j L. rewrite J by auto. now destruct j.
  - destruct (Z.compare_spec x y) as [->|L|L]; try discriminate.
    + apply zless_tail, IH; [apply (strip0_tail _ _ _ C)|now inversion P|auto].
    + exists 0%nat. split; [exact L|]. intros j J. lia.
Qed.
Lemma strip0_idem l : strip0 (strip0 l) = strip0 l.
Proof.
  destruct (strip0 l) as [|x r] eqn:E; [reflexivity|]. rewrite strip0_cons, (strip0_tail _ _ _ E). destruct r; [|reflexivity].
  destruct (Z.eqb_spec x 0) as [->|]; [|reflexivity]. exfalso. assert (X : strip0 l = []); [|congruence].
  apply strip0_zero. intros i. rewrite E. destruct i as [|[|i]]; reflexivity.
Qed.
Lemma strip0_nonneg l : Forall (fun x => 0 <= x) l -> Forall (fun x => 0 <= x) (strip0 l).
Proof.
  intros F. apply Forall_forall. intros c I. destruct (In_nth _ _ 0 I) as (i & _ & <-). rewrite strip0_nth.
  destruct (Nat.lt_ge_cases i (length l)); [|rewrite nth_overflow by auto; lia]. rewrite Forall_forall in F. apply F, nth_In. auto.
Qed.
Lemma of_N_nth l i : nth i (map Z.of_N l) 0 = Z.of_N (nth i l 0%N).
Proof. change 0 with (Z.of_N 0) at 1. apply map_nth. Qed.
Definition canon (l : list N) : list Z := strip0 (map Z.of_N l).
Lemma canon_nth l i : nth i (canon l) 0 = Z.of_N (nth i l 0%N).
Proof. unfold canon. now rewrite strip0_nth, of_N_nth. Qed.
Lemma ver_lt a b : lex (canon a) (canon b) = Datatypes.Lt -> ver_less a b.
Proof.
  intros E. apply lex_zless in E.
  - destruct E as (i & L & J). exists i. rewrite !canon_nth in L. split; [lia|]. intros j H. specialize (J j H). rewrite !canon_nth in J. lia.
  - apply strip0_idem.
  - apply strip0_nonneg. apply Forall_forall. intros z I. apply in_map_iff in I as (n & <- & _). lia.
Qed.
Lemma ver_eq a b : lex (canon a) (canon b) = Datatypes.Eq -> ver_same a b.
Proof. intros E. apply lex_eq in E. intros i. apply N2Z.inj. rewrite <- !canon_nth. now rewrite E. Qed.
Lemma ver_asym a b : ver_less a b -> ~ ver_less b a.
Proof.
  intros (i & L & J) (k & L' & J'). destruct (Nat.lt_trichotomy i k) as [H|[->|H]].
  - rewrite (J' i H) in L. lia.
  - lia.
  - rewrite (J k H) in L'. lia.
Qed.
Lemma ver_not_same a b : ver_less a b -> ~ ver_same a b /\ ~ ver_same b a.
Proof. intros (i & L & _). split; intros S; rewrite S in L; lia. Qed.

Lemma num_iff v x : num v x <-> as_num v = Some x.
Proof.
  destruct v as [|[|]|z|t|l]; cbn [as_num]; split; intros H; try (now inversion H).
  - injection H as <-. constructor.
  - injection H as <-. constructor.
  - injection H as <-. constructor.
Qed.
Lemma num_fun v x y : num v x -> num v y -> x = y.
Proof. rewrite !num_iff. congruence. Qed.
Lemma less_asym a b : less a b -> ~ less b a.
Proof.
  intros H1 H2. destruct H1 as [a b x y A B L|s t L|a b L].
  - inversion H2 as [a' b' x' y' A' B' L'|s t L'|a' b' L']; subst.
    + rewrite (num_fun _ _ _ A' B), (num_fun _ _ _ B' A) in L'. lia.
    + inversion A.
    + inversion A.
  - inversion H2 as [a' b' x' y' A' B' L'|s' t' L'|a' b' L']; subst; [inversion A'|]. exact (text_asym _ _ L L').
  - inversion H2 as [a' b' x' y' A' B' L'|s' t' L'|a' b' L']; subst; [inversion A'|]. exact (ver_asym _ _ L L').
Qed.
Lemma less_not_same a b : less a b -> ~ same a b /\ ~ same b a.
Proof.
  intros H1. assert (Sy : forall p q, same p q -> same q p).
  { intros p q [|p' q' x A B|s|l m V]; [constructor|eapply sm_num; eauto|constructor|apply sm_ver]. intros i. now rewrite V. }
  assert (N : ~ same a b).
  { intros H2. destruct H1 as [a b x y A B L|s t L|a b L].
    - inversion H2; subst.
      + inversion A.
      + assert (x = y); [|lia]. rewrite (num_fun _ _ _ A H), (num_fun _ _ _ B H0). reflexivity.
      + inversion A.
      + inversion A.
    - inversion H2 as [|? ? ? A B|s'|]; subst; [inversion A|]. exact (text_irrefl _ L).
    - inversion H2 as [|? ? ? A B|s'|? ? V]; subst; [inversion A|]. now apply (proj1 (ver_not_same _ _ L)). }
  split; [exact N|]. intros S. apply N. now apply Sy.
Qed.
Lemma less_comparable a b : less a b -> comparable a b /\ comparable b a.
Proof. intros [a' b' x y A B L|s t L|a' b' L]; split; try (eapply cp_num; eauto; fail); constructor. Qed.
(** What [order] says. *)
Lemma order_spec a b :
  match order a b with
  | Some Datatypes.Lt => less a b
  | Some Datatypes.Eq => same a b /\ comparable a b
  | Some Datatypes.Gt => less b a
  | None => ~ comparable a b
  end.
Proof.
  assert (G : forall x y, as_num a = Some x -> as_num b = Some y ->
    match x ?= y with Datatypes.Lt => less a b | Datatypes.Eq => same a b /\ comparable a b | Datatypes.Gt => less b a end).
  { intros x y A B. apply num_iff in A, B. destruct (Z.compare_spec x y) as [->|L|L].
    - split; [eapply sm_num|eapply cp_num]; eauto.
    - eapply ls_num; eauto.
    - eapply ls_num; eauto. }
  unfold order. destruct a as [|p|z|s|l], b as [|p'|z'|s'|l']; cbn [as_num] in *; try (exact (G _ _ eq_refl eq_refl));
    try (intros H; inversion H as [? ? ? ? A B|?|?]; subst; try (now inversion A); now inversion B).
  - destruct (lex s s') eqn:E.
    + apply lex_eq in E as ->. split; constructor.
    + constructor. now apply lex_lt.
    + constructor. now apply lex_lt, lex_gt.
  - fold (canon l) (canon l'). destruct (lex (canon l) (canon l')) eqn:E.
    + split; constructor. now apply ver_eq.
    + constructor. now apply ver_lt.
    + constructor. now apply ver_lt, lex_gt.
Qed.
Lemma py_eq_spec a b : py_eq a b = true <-> same a b.
Proof.
  assert (N : a = VNone /\ b = VNone \/ py_eq a b = match order a b with Some Datatypes.Eq => true | _ => false end /\ (~ comparable a b -> ~ same a b)).
  { assert (X : ~ (a = VNone /\ b = VNone) -> ~ comparable a b -> ~ same a b).
    { intros NN C S. apply C. destruct S as [|? ? ? A B|?|?]; try (eapply cp_num; eauto; fail); try (constructor; fail). exfalso. auto. }
    destruct a, b; cbn [py_eq]; auto; right; split; try reflexivity; apply X; intros [E1 E2]; discriminate. }
  destruct N as [[-> ->]|[E C]]; [split; [constructor|reflexivity]|]. rewrite E. pose proof (order_spec a b) as O.
  destruct (order a b) as [[| |]|].
  - split; auto. intros _. apply O.
  - split; [discriminate|]. intros S. now destruct (less_not_same _ _ O).
  - split; [discriminate|]. intros S. now destruct (less_not_same _ _ O).
  - split; [discriminate|]. intros S. now destruct (C O).
Qed.
Lemma holds_iff o a b r : compare_op o a b = Ok r <-> holds o a b r.
Proof.
  pose proof (order_spec a b) as O. pose proof (py_eq_spec a b) as Q.
  assert (D : py_eq a b = true /\ same a b \/ py_eq a b = false /\ ~ same a b).
  { destruct (py_eq a b); [left; split; [reflexivity|now apply Q]|right; split; [reflexivity|]]. intros S. apply Q in S. discriminate. }
  unfold compare_op. split.
  - destruct o; intros E.
    + injection E as <-. destruct D as [[-> S]|[-> S]]; now constructor.
    + injection E as <-. destruct D as [[-> S]|[-> S]]; now constructor.
    + destruct (order a b) as [[| |]|]; try discriminate; injection E as <-.
      * constructor; [apply O|]. intros L. now destruct (less_not_same _ _ L).
      * now constructor.
      * constructor; [now apply less_comparable in O|now apply less_asym].
    + destruct (order a b) as [[| |]|]; try discriminate; injection E as <-.
      * constructor; [apply O|]. intros L. now destruct (less_not_same _ _ L).
      * constructor; [now apply less_comparable in O|now apply less_asym].
      * now constructor.
    + destruct (order a b) as [[| |]|]; try discriminate; injection E as <-.
      * constructor; [apply O|]. intros L. now destruct (less_not_same _ _ L).
      * constructor; [now apply less_comparable in O|now apply less_asym].
      * now constructor.
    + destruct (order a b) as [[| |]|]; try discriminate; injection E as <-.
      * constructor; [apply O|]. intros L. now destruct (less_not_same _ _ L).
      * now constructor.
      * constructor; [now apply less_comparable in O|now apply less_asym].
    + discriminate.
  - assert (Same : same a b -> comparable a b -> ~ less a b /\ ~ less b a).
    { intros S _. split; intros L; destruct (less_not_same _ _ L); contradiction. }
    intros H. destruct H as [a b H|a b H|a b H|a b H|a b H|a b H1 H2|a b H|a b H1 H2|a b H1 H2|a b H|a b H1 H2|a b H];
      try (destruct D as [[-> S]|[-> S]]; try reflexivity; contradiction);
      destruct (order a b) as [[| |]|]; try reflexivity; exfalso;
      try contradiction;
      try (destruct O as [O1 O2]; destruct (Same O1 O2); contradiction);
      try (now apply (less_asym _ _ H));
      try (apply O; now apply less_comparable in H).
Qed.

(** Induction over expressions *)
Section expr_induction.
  Variable P : expr -> Prop.
  Hypothesis HB : forall b e l, P e -> Forall P l -> P (BoolOp b e l).
  Hypothesis HN : forall e, P e -> P (Not e).
  Hypothesis HC : forall e l, P e -> Forall (fun oe => P (snd oe)) l -> P (Compare e l).
  Hypothesis HA : forall n, P (Name n).
  Hypothesis HK : forall v, P (Const v).
  Hypothesis HO : P Other.
  Fixpoint expr_ind2 (e : expr) : P e :=
    match e with
    | BoolOp b e l => HB b e l (expr_ind2 e)
        ((fix go (l : list expr) : Forall P l := match l with [] => Forall_nil _ | x :: l => Forall_cons _ (expr_ind2 x) (go l) end) l)
    | Not e => HN e (expr_ind2 e)
    | Compare e l => HC e l (expr_ind2 e)
        ((fix go (l : list (cmp * expr)) : Forall (fun oe => P (snd oe)) l :=
            match l with [] => Forall_nil _ | x :: l => Forall_cons _ (expr_ind2 (snd x)) (go l) end) l)
    | Name n => HA n
    | Const v => HK v
    | Other => HO
    end.
End expr_induction.
(** The loops of [eval], named. *)
Fixpoint bool_loop (env : text -> value) (is_and : bool) (lv : value) (l : list expr) : res value :=
  match l with
  | [] => Ok lv
  | r :: l =>
      match eval env r with
      | Err x => Err x
      | Ok rv => bool_loop env is_and (if is_and then (if truthy lv then rv else lv) else (if truthy lv then lv else rv)) l
      end
  end.
Fixpoint cmp_loop (env : text -> value) (lv : value) (l : list (cmp * expr)) : res value :=
  match l with
  | [] => Ok (VBool true)
  | (o, r) :: l =>
      match operand (eval env r) with
      | Err x => Err x
      | Ok rv =>
          match compare_op o lv rv with
          | Err x => Err x
          | Ok true => cmp_loop env rv l
          | Ok false => Ok (VBool false)
          end
      end
  end.
Lemma eval_bool env b e l : eval env (BoolOp b e l) = match eval env e with Ok v => bool_loop env b v l | Err x => Err x end.
Proof.
  cbn [eval]. destruct (eval env e) as [v|]; [|reflexivity]. revert v. induction l as [|r l IH]; intros v; [reflexivity|].
  cbn [bool_loop]. destruct (eval env r); [|reflexivity]. apply IH.
Qed.
Lemma eval_cmp env e l : eval env (Compare e l) = match operand (eval env e) with Ok v => cmp_loop env v l | Err x => Err x end.
Proof.
  cbn [eval]. destruct (operand (eval env e)) as [v|]; [|reflexivity]. revert v. induction l as [|[o r] l IH]; intros v; [reflexivity|].
  cbn [cmp_loop]. destruct (operand (eval env r)); [|reflexivity]. destruct (compare_op o v a) as [[|]|]; try reflexivity. apply IH.
Qed.
Lemma operand_inv r a : operand r = Ok a -> exists v, r = Ok v /\ compared_as v a.
Proof. destruct r as [v|]; [|discriminate]. intros E. exists v. split; auto. now apply compared_iff. Qed.

Lemma eval_means env e : forall v, eval env e = Ok v -> means env e v.
Proof.
  induction e as [b e l IH F|e IH|e l IH F|n|w|] using expr_ind2; intros v E.
  - rewrite eval_bool in E. destruct (eval env e) as [v0|] eqn:E0; [|discriminate]. specialize (IH _ eq_refl). destruct b; constructor.
    + revert e v0 E0 IH E. induction F as [|r l Hr F IHl]; intros e v0 E0 IH E; cbn [bool_loop] in E.
      * injection E as <-. now constructor.
      * destruct (eval env r) as [rv|] eqn:Er; [|discriminate]. destruct (truthy v0) eqn:T.
        -- eapply ao_go; [exact IH|now apply is_true_truthy|]. eapply IHl; eauto.
        -- assert (X : v = v0).
           { clear - E T. induction l as [|r l IHl]; cbn [bool_loop] in E; [congruence|]. destruct (eval env r); [|discriminate]. rewrite T in E. auto. }
           subst v. apply ao_stop; auto. now apply not_true_falsy.
    + revert e v0 E0 IH E. induction F as [|r l Hr F IHl]; intros e v0 E0 IH E; cbn [bool_loop] in E.
      * injection E as <-. now constructor.
      * destruct (eval env r) as [rv|] eqn:Er; [|discriminate]. destruct (truthy v0) eqn:T.
        -- assert (X : v = v0).
           { clear - E T. induction l as [|r l IHl]; cbn [bool_loop] in E; [congruence|]. destruct (eval env r); [|discriminate]. rewrite T in E. auto. }
           subst v. apply yo_stop; auto. now apply is_true_truthy.
        -- eapply yo_go; [exact IH|now apply not_true_falsy|]. eapply IHl; eauto.
  - cbn [eval] in E. destruct (eval env e) as [v0|]; [|discriminate]. injection E as <-. specialize (IH _ eq_refl).
    destruct (truthy v0) eqn:T; cbn [negb]; [eapply m_not_true|eapply m_not_false]; eauto; [now apply is_true_truthy|now apply not_true_falsy].
  - rewrite eval_cmp in E. destruct (operand (eval env e)) as [a|] eqn:O; [|discriminate]. apply operand_inv in O as (v0 & E0 & C).
    assert (X : exists r, v = VBool r /\ chain env a l r).
    { clear E0 C IH. revert a E. induction F as [|[o r] l Hr F IHl]; intros a E; cbn [cmp_loop] in E.
      - exists true. split; [congruence|constructor].
      - destruct (operand (eval env r)) as [b|] eqn:O; [|discriminate]. apply operand_inv in O as (w & Ew & Cw). apply Hr in Ew. cbn [snd] in Ew.
        destruct (compare_op o a b) as [[|]|] eqn:K; try discriminate.
        + apply holds_iff in K. destruct (IHl _ E) as (r' & -> & Ch). exists r'. split; auto. eapply ch_true; eauto.
        + apply holds_iff in K. injection E as <-. exists false. split; auto. eapply ch_false; eauto. }
    destruct X as (r & -> & Ch). econstructor; eauto.
  - cbn [eval] in E. constructor. now apply normalize_iff.
  - cbn [eval] in E. injection E as <-. constructor.
  - discriminate.
Qed.
Scheme means_mind := Induction for means Sort Prop
  with all_mind := Induction for all_of Sort Prop
  with any_mind := Induction for any_of Sort Prop
  with chain_mind := Induction for chain Sort Prop.
Lemma stands_fun v a b : stands_for v a -> stands_for v b -> a = b.
Proof. rewrite <- !normalize_iff. congruence. Qed.
Lemma compared_fun v a b : compared_as v a -> compared_as v b -> a = b.
Proof. rewrite <- !compared_iff. congruence. Qed.
Lemma holds_fun o a b r s : holds o a b r -> holds o a b s -> r = s.
Proof. rewrite <- !holds_iff. congruence. Qed.
Lemma means_fun env e v : means env e v -> forall w, means env e w -> v = w.
Proof.
  intros M. induction M using means_mind with
    (P0 := fun e l v _ => forall w, all_of env e l w -> v = w)
    (P1 := fun e l v _ => forall w, any_of env e l w -> v = w)
    (P2 := fun a l r _ => forall s, chain env a l s -> r = s).
  - intros w H. inversion H; subst. auto.
  - intros w H. inversion H; subst. auto.
  - intros w H. inversion H as [| |? v' M' T| ? v' M' T| | |]; subst; [reflexivity|]. apply IHM in M'. subst v'. contradiction.
  - intros w H. inversion H as [| |? v' M' T| ? v' M' T| | |]; subst; [|reflexivity]. apply IHM in M'. subst v'. contradiction.
  - intros w H. inversion H as [| | | |? ? v' a' r' M' C' Ch'| |]; subst. apply IHM in M'. subst v'.
    rewrite (compared_fun _ _ _ c C') in *. f_equal. now apply IHM0.
  - intros w H. inversion H as [| | | | |? ? S|]; subst. eapply stands_fun; eauto.
  - intros w H. now inversion H.
  - intros w H. inversion H; subst. auto.
  - intros w H. inversion H as [|? ? ? ? M' T|? ? ? v' ? M' T]; subst; [auto|]. apply IHM in M'. subst v'. contradiction.
  - intros w0 H. inversion H as [|? ? ? ? M' T|? ? ? v' ? M' T]; subst; [|auto]. apply IHM in M'. subst w0. contradiction.
  - intros w H. inversion H; subst. auto.
  - intros w H. inversion H as [|? ? ? ? M' T|? ? ? v' ? M' T]; subst; [auto|]. apply IHM in M'. subst v'. contradiction.
  - intros w0 H. inversion H as [|? ? ? ? M' T|? ? ? v' ? M' T]; subst; [|auto]. apply IHM in M'. subst w0. contradiction.
  - intros s H. now inversion H.
  - intros s H. inversion H as [|? ? ? ? v' b' M' C' K'|? ? ? ? v' b' ? M' C' K']; subst; [reflexivity|].
    apply IHM in M'. subst v'. rewrite (compared_fun _ _ _ c C') in *. now pose proof (holds_fun _ _ _ _ _ h K').
  - intros s H. inversion H as [|? ? ? ? v' b' M' C' K'|? ? ? ? v' b' ? M' C' K' Ch']; subst.
    + apply IHM in M'. subst v'. rewrite (compared_fun _ _ _ c C') in *. now pose proof (holds_fun _ _ _ _ _ h K').
    + apply IHM in M'. subst v'. rewrite (compared_fun _ _ _ c C') in *. auto.
Qed.

(** *** The code's answer is Python's *)
Theorem C47_marker_meaning : forall env e v, eval env e = Ok v ->
  means env e v /\ forall w, means env e w -> w = v.
Proof. intros env e v E. apply eval_means in E. split; auto. intros w W. symmetry. eapply means_fun; eauto. Qed.

(** The parts of an expression, itself included. *)
Inductive part : expr -> expr -> Prop :=
| pt_self : forall e, part e e
| pt_bool : forall f b e l x, In x (e :: l) -> part f x -> part f (BoolOp b e l)
| pt_not : forall f e, part f e -> part f (Not e)
| pt_lhs : forall f e l, part f e -> part f (Compare e l)
| pt_rhs : forall f e l o x, In (o, x) l -> part f x -> part f (Compare e l).
(** Every operand of [and] and [or] has a meaning, also those that Python would not look at. *)
Definition operands_defined (env : text -> value) (e : expr) : Prop :=
  forall b x l, part (BoolOp b x l) e -> Forall (fun f => exists w, means env f w) (x :: l).

(** Then the code finds the meaning. *)
Theorem C47_marker_answered_partial : forall env e v, means env e v -> operands_defined env e -> eval env e = Ok v.
Proof.
  intros env e. induction e as [b e l IH F|e IH|e l IH F|n|w|] using expr_ind2; intros v M D.
  - assert (X : exists w, eval env (BoolOp b e l) = Ok w).
    { assert (D0 := D _ _ _ (pt_self _)). inversion D0 as [|? ? [w0 W0] DL]; subst. rewrite eval_bool.
      rewrite (IH _ W0) by (intros b' x' l' P; apply (D b' x' l'); eapply pt_bool; eauto; now left).
      assert (Sub : forall f, In f l -> operands_defined env f) by (intros f I b' x' l' P; apply (D b' x' l'); eapply pt_bool; eauto; now right).
      clear D D0 M W0 IH. revert w0. induction F as [|r l Hr F IHl]; intros w0; cbn [bool_loop]; [eauto|].
      inversion DL as [|? ? [w1 W1] DL']; subst. rewrite (Hr _ W1) by (apply Sub; now left). apply IHl; auto. intros f I. apply Sub. now right. }
    destruct X as [w X]. rewrite X. f_equal. apply eval_means in X. eapply means_fun; eauto.
  - cbn [eval]. assert (De : operands_defined env e) by (intros b' x' l' P; apply (D b' x' l'); now constructor).
    inversion M as [| |? v' M' T|? v' M' T| | |]; subst; rewrite (IH _ M' De).
    + apply is_true_truthy in T. now rewrite T.
    + apply not_true_falsy in T. now rewrite T.
  - rewrite eval_cmp. assert (De : operands_defined env e) by (intros b' x' l' P; apply (D b' x' l'); now constructor).
    inversion M as [| | | |? ? v' a r M' C Ch| |]; subst. rewrite (IH _ M' De). apply compared_iff in C. rewrite C. clear M M' C IH De.
    assert (Sub : forall o f, In (o, f) l -> operands_defined env f) by (intros o f I b' x' l' P; apply (D b' x' l'); eapply pt_rhs; eauto).
    clear D. revert a Ch. induction F as [|[o x] l Hx F IHl]; intros a Ch; cbn [cmp_loop].
    + now inversion Ch.
    + cbn [snd] in Hx. assert (Dx : operands_defined env x) by (eapply Sub; now left).
      inversion Ch as [|? ? ? ? w b M' C' K|? ? ? ? w b ? M' C' K Ch']; subst; rewrite (Hx _ M' Dx); apply compared_iff in C'; rewrite C';
        apply holds_iff in K; rewrite K; [reflexivity|]. apply IHl; auto. intros o' f I. eapply Sub. right. exact I.
  - cbn [eval]. inversion M; subst. now apply normalize_iff.
  - inversion M; subst. reflexivity.
  - inversion M.
Qed.
(** In full, without the condition on operands: refuted.  Python reads
    has_cuda and cuda_version >= "12.1"
    as False on a machine without CUDA; the code compares None with a version all the same and
    raises TypeError. *)
Definition no_cuda (n : text) : value := if teqb n (u "has_cuda") then VBool false else VNone.
Definition cuda_marker : expr :=
  BoolOp true (Name (u "has_cuda")) [Compare (Name (u "cuda_version")) [(GtE, Const (VStr (u "12.1")))]].
Theorem C47_marker_answered_refuted :
  ~ (forall env e v, means env e v -> eval env e = Ok v) /\
  means no_cuda cuda_marker (VBool false) /\ eval no_cuda cuda_marker = Err TypeError.
Proof.
  assert (M : means no_cuda cuda_marker (VBool false)).
  { apply m_and, ao_stop; [|unfold is_true; tauto]. apply m_name. apply (sf_other (VBool false)). discriminate. }
  split; [|split; [exact M|reflexivity]]. intros C. apply C in M. vm_compute in M. discriminate.
Qed.

(** ** Requirement lists *)
Definition blank (c : Z) : Prop := c = 32 \/ 9 <= c <= 13.
(** [t] is [s] without the blanks at its two ends. *)
Definition trimmed (s t : text) : Prop :=
  exists a b, s = a ++ t ++ b /\ Forall blank a /\ Forall blank b /\
    (forall c r, t = c :: r -> ~ blank c) /\ (forall r c, t = r ++ [c] -> ~ blank c).
Definition direct_url (s : text) : Prop :=
  exists p r, In p [u "git+"; u "http://"; u "https://"; u "svn+"; u "hg+"; u "bzr+"] /\ s = p ++ r.
(** What becomes of one requirement; [vars]: the variables. *)
Inductive decided (L : lib) (vars : list (text * value)) (s : text) : list text -> Prop :=
| dc_url : direct_url s -> decided L vars s [s]
| dc_plain : forall t r, ~ direct_url s -> ~ In 59 s -> trimmed s t -> parse_req L t = Some r -> decided L vars s [str_req r]
| dc_std : forall r, ~ direct_url s -> In 59 s -> parse_req L s = Some r ->
    (forall m, r_marker r = Some m -> eval_std L m = Ok true) -> decided L vars s [r_name r ++ r_specifier r]
| dc_std_out : forall r m, ~ direct_url s -> In 59 s -> parse_req L s = Some r ->
    r_marker r = Some m -> eval_std L m = Ok false -> decided L vars s []
| dc_custom : forall a b a' b' e v r, ~ direct_url s -> s = a ++ 59 :: b -> ~ In 59 a -> parse_req L s = None ->
    trimmed a a' -> trimmed b b' -> custom L (substitute_variables b' vars) = true ->
    parse_expr L (substitute_variables b' vars) = Some e -> means (environment L) e v -> is_true v ->
    parse_req L a' = Some r -> decided L vars s [str_req r]
| dc_custom_out : forall a b b' e v, ~ direct_url s -> s = a ++ 59 :: b -> ~ In 59 a -> parse_req L s = None ->
    trimmed b b' -> custom L (substitute_variables b' vars) = true ->
    parse_expr L (substitute_variables b' vars) = Some e -> means (environment L) e v -> ~ is_true v ->
    decided L vars s [].

Lemma space_iff c : is_space c = true <-> blank c.
Proof. unfold is_space, blank. rewrite orb_true_iff, andb_true_iff, Z.eqb_eq, !Z.leb_le. tauto. Qed.
Lemma lstrip_split s : exists a, s = a ++ lstrip s /\ Forall blank a /\ forall c r, lstrip s = c :: r -> ~ blank c.
Proof.
  induction s as [|c s (a & E & F & N)]; [exists []; repeat split; [constructor|discriminate]|]. cbn [lstrip]. destruct (is_space c) eqn:S.
  - exists (c :: a). cbn [app]. repeat split; [congruence|constructor; auto; now apply space_iff|exact N].
  - exists []. repeat split; [constructor|]. intros c' r X. injection X as <- <-. rewrite <- space_iff. congruence.
Qed.
Lemma Forall_rev' {A} (P : A -> Prop) l : Forall P l -> Forall P (rev l).
Proof. intros F. apply Forall_forall. intros x I. apply in_rev in I. rewrite Forall_forall in F. auto. Qed.
Lemma strip_trimmed s : trimmed s (strip s).
Proof.
  unfold strip. destruct (lstrip_split s) as (a & E & Fa & Na). destruct (lstrip_split (rev (lstrip s))) as (b & E' & Fb & Nb).
  set (t := lstrip (rev (lstrip s))) in *. assert (X : lstrip s = rev t ++ rev b).
  { rewrite <- rev_app_distr, <- E'. now rewrite rev_involutive. }
  exists a, (rev b). split; [rewrite <- X; exact E|]. split; [exact Fa|]. split; [now apply Forall_rev'|]. split.
  - intros c r H. apply (Na c (r ++ rev b)). rewrite X, H. reflexivity.
  - intros r c H. apply (Nb c (rev r)). rewrite <- (rev_involutive t), H, rev_app_distr. reflexivity.
Qed.
Lemma trim_unique_l a a' t t' : a ++ t = a' ++ t' -> Forall blank a -> Forall blank a' ->
  (forall c r, t = c :: r -> ~ blank c) -> (forall c r, t' = c :: r -> ~ blank c) -> a = a' /\ t = t'.
Proof.
  revert a'. induction a as [|c a IH]; intros a' E F F' N N'.
  - destruct a' as [|c' a']; [auto|]. exfalso. cbn in E. apply (N c' (a' ++ t') E). now inversion F'.
  - destruct a' as [|c' a']; [exfalso; cbn in E; apply (N' c (a ++ t)); [auto|now inversion F]|].
    cbn in E. injection E as -> E. inversion F; inversion F'; subst. destruct (IH a') as [-> ->]; auto.
Qed.
Lemma ends_app_cons (t b : text) : (forall r c, t ++ b = r ++ [c] -> ~ blank c) -> Forall blank b -> b = [].
Proof.
  intros N F. destruct b as [|x b]; [reflexivity|]. exfalso. destruct (exists_last (l := x :: b)) as (r & c & E); [discriminate|].
  rewrite E in *. apply (N (t ++ r) c); [now rewrite app_assoc|]. rewrite Forall_app in F. destruct F as [_ F]. now inversion F.
Qed.
Lemma trimmed_fun s t t' : trimmed s t -> trimmed s t' -> t = t'.
Proof.
  intros (a & b & E & Fa & Fb & N1 & N2) (a' & b' & E' & Fa' & Fb' & N1' & N2').
  destruct t as [|c t].
  - cbn [app] in E. destruct t' as [|c' t']; [reflexivity|]. exfalso. apply (N1' c' t' eq_refl).
    assert (F : Forall blank s) by (rewrite E; apply Forall_app; auto). rewrite E', Forall_app in F. destruct F as [_ F]. now inversion F.
  - destruct t' as [|c' t'].
    + exfalso. apply (N1 c t eq_refl). assert (F : Forall blank s) by (rewrite E'; apply Forall_app; auto).
      rewrite E, Forall_app in F. destruct F as [_ F]. now inversion F.
    + rewrite E in E'. apply trim_unique_l in E'; auto.
      * destruct E' as [_ E']. apply (f_equal (@rev Z)) in E'. rewrite !rev_app_distr in E'.
        apply trim_unique_l in E' as [_ E']; auto using Forall_rev'.
        -- rewrite <- (rev_involutive (c :: t)), E'. apply rev_involutive.
        -- intros x r H. apply (N2 (rev r) x). rewrite <- (rev_involutive (c :: t)), H. reflexivity.
        -- intros x r H. apply (N2' (rev r) x). rewrite <- (rev_involutive (c' :: t')), H. reflexivity.
      * intros x r H. injection H as <- _. now apply (N1 c t).
      * intros x r H. injection H as <- _. now apply (N1' c' t').
Qed.
Lemma trimmed_iff s t : trimmed s t <-> t = strip s.
Proof. split; [intros T; eapply trimmed_fun; eauto; apply strip_trimmed|intros ->; apply strip_trimmed]. Qed.
Lemma url_iff s : is_vcs_url s = true <-> direct_url s.
Proof.
  unfold is_vcs_url, direct_url. rewrite existsb_exists. split.
  - intros (p & I & S). apply starts_inv in S as [r ->]. eauto.
  - intros (p & r & I & ->). exists p. split; auto. apply starts_app.
Qed.
Lemma semi_spec s : match split_semi s with Some (a, b) => s = a ++ 59 :: b /\ ~ In 59 a | None => ~ In 59 s end.
Proof.
  induction s as [|c s IH]; cbn [split_semi]; [intros []|]. destruct (Z.eqb_spec c 59) as [->|N].
  - split; [reflexivity|intros []].
  - destruct (split_semi s) as [[a b]|].
    + destruct IH as [-> NI]. split; [reflexivity|]. intros [I|I]; congruence.
    + intros [I|I]; congruence.
Qed.
Lemma semi_unique (a b a' b' : text) : a ++ 59 :: b = a' ++ 59 :: b' -> ~ In 59 a -> ~ In 59 a' -> a = a' /\ b = b'.
Proof.
  revert a'. induction a as [|c a IH]; intros [|c' a'] E N N'; cbn in E.
  - injection E as ->. auto.
  - exfalso. apply N'. left. congruence.
  - exfalso. apply N. left. congruence.
  - injection E as <- E. destruct (IH a') as [-> ->]; auto; intros I; [apply N|apply N']; now right.
Qed.
Lemma filter_one_decided L vars s o : filter_one L vars s = Ok o -> decided L vars s o.
Proof.
  unfold filter_one. destruct (is_vcs_url s) eqn:U.
  - intros E. injection E as <-. apply dc_url. now apply url_iff.
  - assert (NU : ~ direct_url s) by (rewrite <- url_iff; congruence). pose proof (semi_spec s) as S.
    destruct (split_semi s) as [[a b]|].
    + destruct S as [S N]. assert (I : In 59 s) by (rewrite S; apply in_or_app; right; now left). cbv zeta.
      destruct (parse_req L s) as [r|] eqn:R.
      * destruct (r_marker r) as [m|] eqn:M; [destruct (eval_std L m) as [[|]|] eqn:V; try discriminate|]; intros E; injection E as <-.
        -- apply dc_std; auto. intros m' Hm. congruence.
        -- eapply dc_std_out; eauto.
        -- apply dc_std; auto. congruence.
      * destruct (custom L _) eqn:C; [|discriminate]. unfold eval_custom_marker.
        destruct (parse_expr L _) as [e|] eqn:P; [|discriminate]. destruct (eval (environment L) e) as [v|] eqn:V; [|discriminate].
        apply eval_means in V. destruct (truthy v) eqn:T.
        -- destruct (parse_req L (strip a)) as [r|] eqn:R'; [|discriminate]. intros E. injection E as <-.
           eapply dc_custom; eauto using strip_trimmed. now apply is_true_truthy.
        -- intros E. injection E as <-. eapply dc_custom_out; eauto using strip_trimmed. now apply not_true_falsy.
    + destruct (parse_req L (strip s)) as [r|] eqn:R; [|discriminate]. intros E. injection E as <-. eapply dc_plain; eauto using strip_trimmed.
Qed.

(** Each requirement of the list, in order, contributes what was decided for it, and nothing else is
    returned. *)
Theorem C47_filter : forall L vars l out, filter_requirements L vars l = Ok out ->
  exists outs, Forall2 (decided L vars) l outs /\ out = concat outs.
Proof.
  intros L vars l. induction l as [|s l IH]; cbn [filter_requirements]; intros out E.
  - injection E as <-. exists []. split; [constructor|reflexivity].
  - destruct (filter_one L vars s) as [a|] eqn:F; [|discriminate]. destruct (filter_requirements L vars l) as [b|]; [|discriminate].
    injection E as <-. destruct (IH _ eq_refl) as (outs & D & ->). exists (a :: outs). split; [constructor; auto; now apply filter_one_decided|reflexivity].
Qed.
(** Conversely it answers, provided the markers meet the condition of [C47_marker_answered_partial]. *)
Definition markers_defined (L : lib) (vars : list (text * value)) (s : text) : Prop :=
  forall a b b' e, s = a ++ 59 :: b -> ~ In 59 a -> trimmed b b' -> parse_expr L (substitute_variables b' vars) = Some e ->
    operands_defined (environment L) e.
Lemma decided_filter_one L vars s o : decided L vars s o -> markers_defined L vars s -> filter_one L vars s = Ok o.
Proof.
  intros D M. unfold filter_one. destruct (is_vcs_url s) eqn:U.
  - apply url_iff in U. destruct D; try contradiction. reflexivity.
  - pose proof (semi_spec s) as S.
    assert (NU : ~ direct_url s) by (rewrite <- url_iff; congruence).
    destruct (split_semi s) as [[a b]|].
    + destruct S as [S N]. assert (I : In 59 s) by (rewrite S; apply in_or_app; right; now left). cbv zeta.
      destruct D as [H|t r H1 H2 H3 H4|r H1 H2 H3 H4|r m H1 H2 H3 H4 H5|a' b' ta tb e v r H1 H2 H3 H4 H5 H6 H7 H8 H9 H10 H11|a' b' tb e v H1 H2 H3 H4 H5 H6 H7 H8 H9]; try contradiction.
      * rewrite H3. destruct (r_marker r) as [m|]; [|reflexivity]. now rewrite (H4 _ eq_refl).
      * now rewrite H3, H4, H5.
      * rewrite H4. rewrite S in H2. apply semi_unique in H2 as [<- <-]; auto.
        assert (OD := M _ _ _ _ S N H6 H8). apply trimmed_iff in H5, H6. subst ta tb. rewrite H7. unfold eval_custom_marker. rewrite H8.
        rewrite (C47_marker_answered_partial _ _ _ H9 OD). apply is_true_truthy in H10. now rewrite H10, H11.
      * rewrite H4. rewrite S in H2. apply semi_unique in H2 as [<- <-]; auto.
        assert (OD := M _ _ _ _ S N H5 H7). apply trimmed_iff in H5. subst tb. rewrite H6. unfold eval_custom_marker. rewrite H7.
        rewrite (C47_marker_answered_partial _ _ _ H8 OD). apply not_true_falsy in H9. now rewrite H9.
    + assert (X : forall a' b', s <> a' ++ 59 :: b') by (intros a' b' E; apply S; rewrite E; apply in_or_app; right; now left).
      destruct D as [H|t r H1 H2 H3 H4|r H1 H2 H3 H4|r m H1 H2 H3 H4 H5|a' b' ta tb e v r H1 H2 H3 H4 H5 H6 H7 H8 H9 H10 H11|a' b' tb e v H1 H2 H3 H4 H5 H6 H7 H8 H9];
        try contradiction; try (exfalso; eapply X; eauto; fail).
      apply trimmed_iff in H3. subst t. now rewrite H4.
Qed.
Theorem C47_filter_answers_partial : forall L vars l outs, Forall2 (decided L vars) l outs -> Forall (markers_defined L vars) l ->
  filter_requirements L vars l = Ok (concat outs).
Proof.
  intros L vars l outs F. induction F as [|s o l outs D F IH]; intros M; [reflexivity|]. inversion M; subst.
  cbn [filter_requirements concat]. rewrite (decided_filter_one _ _ _ _ D) by auto. now rewrite IH.
Qed.

(** A kept requirement should be the requirement that was written, without its marker.  This holds for
    custom markers ([dc_custom]); under a standard marker the extras are lost. *)
Definition without_marker (r : req) : req :=
  {| r_name := r_name r; r_extras := r_extras r; r_specifier := r_specifier r; r_url := r_url r; r_marker := None |}.
Definition claim_kept_as_written : Prop := forall L vars s r m o, parse_req L s = Some r -> r_marker r = Some m -> ~ direct_url s ->
  filter_requirements L vars [s] = Ok [o] -> o = str_req (without_marker r).
Definition uvicorn : text := u "uvicorn[standard]>=0.2; python_version > '3'".
Definition uvicorn_req : req :=
  {| r_name := u "uvicorn"; r_extras := [u "standard"]; r_specifier := u ">=0.2"; r_url := None; r_marker := Some (u "python_version > '3'") |}.
Definition uvicorn_lib : lib :=
  {| parse_req := fun s => if teqb s uvicorn then Some uvicorn_req else None; eval_std := fun _ => Ok true; custom := fun _ => true;
     parse_expr := fun _ => None; environment := fun _ => VNone |}.
Theorem C47_kept_as_written_refuted : ~ claim_kept_as_written.
Proof.
  intros C. specialize (C uvicorn_lib [] uvicorn uvicorn_req (u "python_version > '3'") (u "uvicorn>=0.2")).
  assert (E : u "uvicorn>=0.2" = str_req (without_marker uvicorn_req)); [|vm_compute in E; discriminate].
  apply C; try reflexivity. rewrite <- url_iff. vm_compute. discriminate.
Qed.

(** ** Versions of the system *)
Theorem C47_system_package : forall installed name version local, installed name = Some (version ++ local) ->
  ~ In 43 version -> (local = [] \/ exists l, local = u "+" ++ l) ->
  resolve installed (u "#system_" ++ name ++ u "#") = Some (name ++ u "==" ++ version).
Proof.
  intros installed name version local E N L. unfold resolve. rewrite starts_app.
  assert (X : ends (u "#") (u "#system_" ++ name ++ u "#") = true).
  { unfold ends. rewrite app_assoc, rev_app_distr. apply starts_app. }
  rewrite X. cbn [andb].
  assert (R : removelast (skipn 8 (u "#system_" ++ name ++ u "#")) = name).
  { change (skipn 8 (u "#system_" ++ name ++ u "#")) with (name ++ [35]). apply removelast_last. }
  rewrite R, E. do 3 f_equal. clear - N L. induction version as [|c v IH]; cbn [app before_plus].
  - destruct L as [->|[l ->]]; reflexivity.
  - destruct (Z.eqb_spec c 43) as [->|]; [exfalso; apply N; now left|]. f_equal. apply IH. intros I. apply N. now right.
Qed.
Theorem C47_other_package : forall installed pkg, (forall name, pkg <> u "#system_" ++ name ++ u "#") ->
  resolve installed pkg = Some pkg.
Proof.
  intros installed pkg H. unfold resolve. destruct (starts (u "#system_") pkg) eqn:S; [|reflexivity].
  destruct (ends (u "#") pkg) eqn:E; [|reflexivity]. exfalso.
  apply starts_inv in S as [r ->]. unfold ends in E. apply starts_inv in E as [q E].
  apply (f_equal (@rev Z)) in E. rewrite rev_involutive, rev_app_distr, rev_involutive in E.
  destruct (exists_last (l := r)) as (r' & c & ->).
  - intros ->. rewrite app_nil_r in E. apply (f_equal (@rev Z)) in E. rewrite rev_app_distr in E. discriminate.
  - rewrite app_assoc in E. apply app_inj_tail in E as [_ EC]. apply (H r'). rewrite EC. reflexivity.
Qed.

(** ** Examples *)
Module Demo.
  Definition env (n : text) : value :=
    if teqb n (u "has_cuda") then VBool true else if teqb n (u "cuda_version") then VStr (u "12.10")
    else if teqb n (u "cuda_arch") then VStr (u "sm_80") else VNone.
  (** cuda_version >= "12.1" and cuda_arch >= "sm_75", with versions compared as versions *)
  Definition marker : expr :=
    BoolOp true (Compare (Name (u "cuda_version")) [(GtE, Const (VStr (u "12.9")))])
      [Not (Compare (Name (u "cuda_arch")) [(Lt, Const (VStr (u "sm_75")))])].
  Example evaluated : eval env marker = Ok (VBool true).
  Proof. reflexivity. Qed.
  Example meant : means env marker (VBool true).
  Proof. exact (proj1 (C47_marker_meaning _ _ _ evaluated)). Qed.
  Example defined : operands_defined env marker.
  Proof.
    intros b x l P.
    assert (X : BoolOp b x l = marker).
    { inversion P as [|? ? ? ? y I Q| | |]; subst; [reflexivity|]. destruct I as [<-|[<-|[]]].
      - inversion Q as [| | |? ? ? R|? ? ? ? y I R]; subst; [inversion R|]. destruct I as [I|[]]. injection I as <- <-. inversion R.
      - inversion Q as [| |? ? R| |]; subst. inversion R as [| | |? ? ? R'|? ? ? ? y I R']; subst; [inversion R'|].
        destruct I as [I|[]]. injection I as <- <-. inversion R'. }
    unfold marker in X. assert (X1 : x = Compare (Name (u "cuda_version")) [(GtE, Const (VStr (u "12.9")))]) by congruence.
    assert (X2 : l = [Not (Compare (Name (u "cuda_arch")) [(Lt, Const (VStr (u "sm_75")))])]) by congruence. subst x l.
    constructor; [exists (VBool true); apply C47_marker_meaning; reflexivity|].
    constructor; [exists (VBool true); apply C47_marker_meaning; reflexivity|constructor].
  Qed.
  (** A version is not compared like a text: "12.10" is after "12.9". *)
  Example versions : means env (Compare (Name (u "cuda_version")) [(Gt, Const (VStr (u "12.9")))]) (VBool true).
  Proof. apply C47_marker_meaning. reflexivity. Qed.
  Definition demo_lib : lib :=
    {| parse_req := fun s => if teqb s (u "torch") then Some {| r_name := u "torch"; r_extras := []; r_specifier := []; r_url := None; r_marker := None |}
         else if teqb s uvicorn then Some uvicorn_req else None;
       eval_std := fun _ => Ok true; custom := fun _ => true;
       parse_expr := fun m => if teqb m (u """vllm"" == ""vllm""") then Some (Compare (Const (VStr (u "vllm"))) [(Eq, Const (VStr (u "vllm")))])
         else if teqb m (u "has_npu") then Some (Name (u "has_npu")) else None;
       environment := env |}.
  Example filtered : filter_requirements demo_lib [(u "engine", VStr (u "vllm"))]
      [u "git+https://x/y; z"; u "torch ; #engine# == ""vllm"" "; u "torch; has_npu"; uvicorn; u " torch "]
    = Ok [u "git+https://x/y; z"; u "torch"; u "uvicorn>=0.2"; u "torch"].
  Proof. vm_compute. reflexivity. Qed.
  Example substituted : substitute_variables (u "#engine# == ""vllm"" and #n# > 2") [(u "engine", VStr (u "v""l")); (u "n", VInt (-3))]
    = u """v\""l"" == ""vllm"" and -3 > 2".
  Proof. vm_compute. reflexivity. Qed.
  Example template_ok : well_formed (u "", [(u "engine", u " == ""vllm"" and "); (u "n", u " > 2")]).
  Proof.
    assert (H : forall t, forallb (fun c => negb (c =? 35)) t = true -> no_hash t).
    { intros t F I. rewrite forallb_forall in F. apply F in I. discriminate. }
    split; [intros []|]. cbn [snd]. apply sep_cons; [name_tac|now apply H| |apply sep_last; [name_tac|now apply H]].
    exists 32. split; [now left|unfold ident_char; lia].
  Qed.
  Example system : resolve (fun n => if teqb n (u "torch") then Some (u "2.1.0+cpu") else None) (u "#system_torch#") = Some (u "torch==2.1.0").
  Proof. vm_compute. reflexivity. Qed.
End Demo.

Print Assumptions C47_string_reads_back_partial.
Print Assumptions C47_string_reads_back_refuted.
Print Assumptions C47_literal_partial.
Print Assumptions C47_substitution_partial.
Print Assumptions C47_substitution_refuted.
Print Assumptions C47_marker_meaning.
Print Assumptions C47_marker_answered_partial.
Print Assumptions C47_marker_answered_refuted.
Print Assumptions C47_filter.
Print Assumptions C47_filter_answers_partial.
Print Assumptions C47_kept_as_written_refuted.
Print Assumptions C47_system_package.
Print Assumptions C47_other_package.
