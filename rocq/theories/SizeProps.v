(** * C41: parse_readable_size

    How to read.  A [numeral] is what a user writes for a decimal number:
    optional minus, digits, optionally a point and digits; [value] is the number
    it denotes.  [written s n u]: the text [s] is the numeral [n] followed by the
    suffix [u], with any spaces around them.  The theorems determine the result
    for every text. *)
From Coq Require Import List Bool Arith ZArith QArith Ascii String Lia.
From Verif Require Import PyStr SizeModel.
Import ListNotations.
Open Scope list_scope.
Open Scope char_scope.

(** ** Specification *)
Definition digit (c : ascii) : Prop := In c (lit "0123456789").

Record numeral := mkNum { neg : bool; ipart : text; point : bool; fpart : text }.

Definition wf (n : numeral) : Prop :=
  Forall digit (ipart n) /\ Forall digit (fpart n) /\
  (point n = false -> fpart n = []) /\ ipart n ++ fpart n <> [].

Definition show (n : numeral) : text :=
  (if neg n then lit "-" else []) ++ ipart n ++ (if point n then lit "." else []) ++ fpart n.

Definition digit_value (c : ascii) : Z := Z.of_nat (nat_of_ascii c - 48).

(** Positional value: the leading digit counts 10 to the number of digits after it. *)
Fixpoint positional (s : text) : Z :=
  match s with [] => 0 | c :: s => digit_value c * 10 ^ Z.of_nat (List.length s) + positional s end%Z.

Definition value (n : numeral) : Q :=
  ((if neg n then -(1) else 1) *
   (inject_Z (positional (ipart n)) + inject_Z (positional (fpart n)) / inject_Z (10 ^ Z.of_nat (List.length (fpart n)))))%Q.

Definition written (s : text) (n : numeral) (u : text) : Prop :=
  exists w0 w1 w2, s = w0 ++ show n ++ w1 ++ u ++ w2 /\ wf n /\
    spaces w0 /\ spaces w1 /\ spaces w2 /\ trimmed u /\
    (forall c t, w1 ++ u = c :: t -> ~ In c (lit "0123456789.-")).

(** The value of a unit letter, in either case. *)
Definition unit_letter (c : ascii) : option Z :=
  match c with
  | "k" | "K" => Some 1024
  | "m" | "M" => Some (1024 * 1024)
  | "g" | "G" => Some (1024 * 1024 * 1024)
  | "t" | "T" => Some (1024 * 1024 * 1024 * 1024)
  | _ => None
  end%Z.

(** No suffix, or one whose first letter is a unit. *)
Definition unit_value (u : text) : option Z :=
  match u with [] => Some 1%Z | c :: _ => unit_letter c end.

(** ** Lemmas *)
Ltac chars c := destruct c as [[] [] [] [] [] [] [] []].

Lemma isdigit_digit c : isdigit c = true <-> digit c.
Proof.
  split.
  - intros H. unfold digit. simpl. chars c; try discriminate H; auto 20.
  - unfold digit. simpl. intros H. repeat (destruct H as [<-|H]; [reflexivity|]). destruct H.
Qed.
Lemma numchar_In c : numchar c = true <-> In c (lit "0123456789.-").
Proof.
  split.
  - intros H. simpl. chars c; try discriminate H; auto 20.
  - simpl. intros H. repeat (destruct H as [<-|H]; [reflexivity|]). destruct H.
Qed.
Lemma lower_space c : is_space (lower1 c) = is_space c.
Proof. chars c; reflexivity. Qed.
Lemma lower_numchar c : numchar (lower1 c) = numchar c.
Proof. chars c; reflexivity. Qed.
Lemma lower_num_id c : numchar c = true -> lower1 c = c.
Proof. chars c; intros H; (reflexivity || discriminate H). Qed.
Lemma lower_percent c : Ascii.eqb "%" (lower1 c) = Ascii.eqb "%" c.
Proof. chars c; reflexivity. Qed.
Lemma space_not_num c : is_space c = true -> numchar c = false.
Proof. chars c; intros H; (reflexivity || discriminate H). Qed.

Lemma index_unit u : 
  match memory_size_index (lower u) with
  | Some i => unit_value u = Some (1024 ^ i)%Z
  | None => unit_value u = None
  end.
Proof. destruct u as [|c u]; [reflexivity|]. chars c; reflexivity. Qed.

Lemma lstrip_lower s : lstrip (lower s) = lower (lstrip s).
Proof. induction s as [|c s IH]; auto. cbn [lower map lstrip]. rewrite lower_space. destruct (is_space c); auto. Qed.
Lemma strip_lower s : strip (lower s) = lower (strip s).
Proof. unfold strip, lower. rewrite lstrip_lower. unfold lower. rewrite <- map_rev. fold (lower (rev (lstrip s))). rewrite lstrip_lower. unfold lower. now rewrite map_rev. Qed.
Lemma endswith_lower s : endswith1 "%" (lower s) = endswith1 "%" s.
Proof. unfold endswith1, lower. rewrite <- map_rev. destruct (rev s) as [|c r]; auto. apply lower_percent. Qed.
Lemma lower_num s : Forall (fun c => numchar c = true) s -> lower s = s.
Proof. induction 1 as [|c s H F IH]; auto. cbn [lower map]. fold (lower s). now rewrite IH, lower_num_id. Qed.
Lemma lower_num_inv s : Forall (fun c => numchar c = true) (lower s) -> lower s = s.
Proof.
  intros F. apply lower_num. unfold lower in F. rewrite Forall_map in F. eapply Forall_impl; [|exact F].
  intros c. cbn beta. now rewrite lower_numchar.
Qed.
Lemma lower_app a b : lower (a ++ b) = lower a ++ lower b.
Proof. apply map_app. Qed.
Lemma lower_spaces w : spaces w -> spaces (lower w).
Proof. unfold spaces, lower. rewrite Forall_map. apply Forall_impl. intros c. now rewrite lower_space. Qed.

(** *** Numbers *)
Lemma dec_acc s : Forall digit s -> forall acc, 
  fold_left (fun acc c => 10 * acc + (Z.of_nat (nat_of_ascii c) - 48))%Z s acc
  = (acc * 10 ^ Z.of_nat (List.length s) + positional s)%Z.
Proof.
  induction 1 as [|c s H F IH]; intros acc; cbn [fold_left positional List.length]; [rewrite Z.pow_0_r; lia|].
  rewrite IH. rewrite Nat2Z.inj_succ, Z.pow_succ_r by lia.
  assert (48 <= nat_of_ascii c)%nat.
  { unfold digit in H. simpl in H. repeat (destruct H as [<-|H]; [vm_compute; lia|]). destruct H. }
  unfold digit_value. rewrite Nat2Z.inj_sub by auto. change (Z.of_nat 48) with 48%Z. ring.
Qed.
Lemma dec_ok s : Forall digit s -> dec s = positional s.
Proof. intros F. unfold dec. rewrite dec_acc by auto. lia. Qed.
Lemma positional_app a b : positional (a ++ b) = (positional a * 10 ^ Z.of_nat (List.length b) + positional b)%Z.
Proof.
  induction a as [|c a IH]; cbn [app positional]; [lia|]. rewrite IH, app_length, Nat2Z.inj_add, Z.pow_add_r by lia. ring.
Qed.

Lemma digits_b s : Forall digit s <-> Forall (fun c => isdigit c = true) s.
Proof. split; apply Forall_impl; intros c; apply isdigit_digit. Qed.

Definition absval (n : numeral) : Q :=
  (inject_Z (positional (ipart n)) + inject_Z (positional (fpart n)) / inject_Z (10 ^ Z.of_nat (List.length (fpart n))))%Q.

Lemma pow10 k : (0 < k)%nat -> Zpos (Pos.pow 10 (Pos.of_nat k)) = (10 ^ Z.of_nat k)%Z.
Proof. intros H. rewrite Pos2Z.inj_pow. f_equal. lia. Qed.

Lemma frac_value ip fp : Forall digit ip -> Forall digit fp ->
  (Qmake (dec (ip ++ fp)) (Pos.pow 10 (Pos.of_nat (List.length fp))) * (match fp with [] => 10 | _ => 1 end)
  == inject_Z (positional ip) + inject_Z (positional fp) / inject_Z (10 ^ Z.of_nat (List.length fp)))%Q.
Proof.
  intros A B. rewrite dec_ok by (apply Forall_app; auto). rewrite positional_app.
  destruct fp as [|c fp].
  - cbn [List.length positional]. change (Z.of_nat 0) with 0%Z. rewrite Z.pow_0_r.
    unfold Qeq, Qmult, Qplus, Qdiv, Qinv, inject_Z. simpl. lia.
  - set (k := List.length (c :: fp)). assert (0 < k)%nat by (unfold k; simpl; lia).
    assert (P := pow10 k ltac:(auto)). set (p := Pos.pow 10 (Pos.of_nat k)) in *.
    rewrite <- P. rewrite Qmult_1_r. unfold Qeq, Qplus, Qdiv, Qinv, Qmult, inject_Z. simpl.
    rewrite ?Pos.mul_1_r, ?Pos.mul_1_l. lia.
Qed.

Lemma pyfloat_abs_show ip (pt : bool) fp : Forall digit ip -> Forall digit fp -> (pt = false -> fp = []) -> ip ++ fp <> [] ->
  exists q, pyfloat_abs (ip ++ (if pt then lit "." else []) ++ fp) = Some q /\
  (q == inject_Z (positional ip) + inject_Z (positional fp) / inject_Z (10 ^ Z.of_nat (List.length fp)))%Q.
Proof.
  intros A B P N. unfold pyfloat_abs. destruct pt.
  - rewrite span_app; [|now apply digits_b|intros c t E; inversion E; reflexivity].
    cbn [lit list_ascii_of_string app]. rewrite Ascii.eqb_refl.
    replace (forallb isdigit fp) with true
      by (symmetry; apply forallb_forall; apply digits_b in B; now rewrite Forall_forall in B).
    destruct (ip ++ fp) eqn:E; [congruence|]. cbn [andb negb]. eexists. split; [reflexivity|].
    rewrite <- E. now apply frac_value.
  - rewrite (P eq_refl) in *. cbn [app]. rewrite app_nil_r in *.
    replace (span isdigit ip) with (span isdigit (ip ++ [])) by now rewrite app_nil_r. rewrite span_app; [|now apply digits_b|discriminate].
    destruct ip as [|c ip]; [congruence|]. eexists. split; [reflexivity|]. rewrite dec_ok by auto.
    cbn [List.length positional]. unfold Qeq, Qmult, Qplus, Qdiv, Qinv, inject_Z. simpl. lia.
Qed.

Lemma not_minus ip (pt : bool) fp : Forall digit ip -> (pt = false -> fp = []) -> ip ++ fp <> [] ->
  exists c t, ip ++ (if pt then lit "." else []) ++ fp = c :: t /\ Ascii.eqb c "-" = false.
Proof.
  intros A P N. destruct A as [|c ip H F].
  - destruct pt; [|rewrite (P eq_refl) in N; elim N; reflexivity]. eexists _, _. split; reflexivity.
  - eexists _, _. split; [reflexivity|]. unfold digit in H. simpl in H.
    repeat (destruct H as [<-|H]; [reflexivity|]). destruct H.
Qed.

Lemma pyfloat_show n : wf n -> exists q, pyfloat (show n) = Some q /\ (q == value n)%Q.
Proof.
  intros (A & B & P & N). destruct (pyfloat_abs_show _ _ _ A B P N) as (q & Q1 & Q2).
  unfold show, value. destruct (neg n).
  - exists (- q)%Q. split.
    + change (lit "-") with ["-"]. cbn [app pyfloat]. rewrite Ascii.eqb_refl, Q1. reflexivity.
    + rewrite Q2. ring.
  - exists q. split; [|rewrite Q2; ring]. cbn [app].
    destruct (not_minus _ (point n) (fpart n) A P N) as (c & t & E & M). unfold pyfloat. rewrite E in *. rewrite M. exact Q1.
Qed.

Lemma pyfloat_abs_inv s q : pyfloat_abs s = Some q -> exists ip (pt : bool) fp,
  s = ip ++ (if pt then lit "." else []) ++ fp /\ Forall digit ip /\ Forall digit fp /\ (pt = false -> fp = []) /\ ip ++ fp <> [].
Proof.
  unfold pyfloat_abs. destruct (span_spec isdigit s) as (E & F & _).
  destruct (span isdigit s) as [ip rest]. cbn [fst snd] in *. apply digits_b in F. intros H.
  destruct rest as [|c fp].
  - destruct ip as [|d ip]; [discriminate|]. exists (d :: ip), false, []. rewrite app_nil_r in *.
    repeat split; auto. discriminate.
  - destruct (Ascii.eqb_spec c ".") as [->|]; [|discriminate]. destruct (forallb isdigit fp) eqn:FB; [|discriminate].
    destruct (ip ++ fp) eqn:N; [discriminate|]. exists ip, true, fp. repeat split; auto; try congruence.
    apply digits_b. apply Forall_forall. now apply forallb_forall.
Qed.

Lemma pyfloat_inv s q : pyfloat s = Some q -> exists n, wf n /\ s = show n.
Proof.
  unfold pyfloat. destruct s as [|c s]; [discriminate|]. destruct (Ascii.eqb_spec c "-") as [->|N].
  - destruct (pyfloat_abs s) eqn:E; [|discriminate]. intros _.
    destruct (pyfloat_abs_inv _ _ E) as (ip & pt & fp & -> & A & B & P & NE).
    exists (mkNum true ip pt fp). split; [repeat split; auto|reflexivity].
  - intros E. destruct (pyfloat_abs_inv _ _ E) as (ip & pt & fp & -> & A & B & P & NE).
    exists (mkNum false ip pt fp). split; [repeat split; auto|reflexivity].
Qed.

Lemma show_numchars n : wf n -> Forall (fun c => numchar c = true) (show n).
Proof.
  intros (A & B & _). unfold show. repeat (apply Forall_app; split).
  - destruct (neg n); repeat constructor.
  - apply digits_b in A. eapply Forall_impl; [|exact A]. intros c H. cbn beta in H. unfold numchar. now rewrite H.
  - destruct (point n); repeat constructor.
  - apply digits_b in B. eapply Forall_impl; [|exact B]. intros c H. cbn beta in H. unfold numchar. now rewrite H.
Qed.

Lemma show_nonempty n : wf n -> show n <> [].
Proof. intros (_ & _ & _ & N) E. unfold show in E. apply app_eq_nil in E. destruct E as [_ E]. apply app_eq_nil in E. destruct E as [E1 E2]. apply app_eq_nil in E2. destruct E2 as [_ E2]. rewrite E1, E2 in N. now apply N. Qed.

(** *** Texts *)
Lemma trimmed_parts n w u : wf n -> trimmed u -> u <> [] -> trimmed (show n ++ w ++ u).
Proof.
  intros W [T1 T2] N. assert (F := show_numchars n W). assert (NE := show_nonempty n W). split; intros c t E.
  - destruct (show n) as [|d s]; [congruence|]. inversion E; subst. inversion F; subst.
    destruct (is_space c) eqn:S; auto. apply space_not_num in S. congruence.
  - destruct (exists_last N) as (u' & d & ->). rewrite !app_assoc in E. apply app_inj_tail in E. destruct E as [_ ->]. eapply T2; reflexivity.
Qed.
Lemma trimmed_num n : wf n -> trimmed (show n).
Proof.
  intros W. assert (F := show_numchars n W). split; intros c t E; rewrite E in F.
  - inversion F; subst. destruct (is_space c) eqn:S; auto. apply space_not_num in S. congruence.
  - apply Forall_app in F. destruct F as [_ F]. inversion F; subst. destruct (is_space c) eqn:S; auto. apply space_not_num in S. congruence.
Qed.

Lemma strip_written w0 n w1 u w2 : wf n -> spaces w0 -> spaces w1 -> spaces w2 -> trimmed u ->
  strip (w0 ++ show n ++ w1 ++ u ++ w2) = show n ++ match u with [] => [] | _ => w1 ++ u end.
Proof.
  intros W S0 S1 S2 T. destruct u as [|c u].
  - rewrite app_nil_r. apply strip_ok; auto using trimmed_num. apply Forall_app. auto.
  - replace (w0 ++ show n ++ w1 ++ (c :: u) ++ w2) with (w0 ++ (show n ++ w1 ++ c :: u) ++ w2) by now rewrite <- !app_assoc.
    apply strip_ok; auto. apply trimmed_parts; auto. discriminate.
Qed.

Lemma parse_written s n u : written s n u ->
  exists q, (q == value n)%Q /\
  parse_readable_size s =
    if endswith1 "%" u then Parsed (q / 100) true
    else match memory_size_index (lower u) with Some i => Parsed (q * inject_Z (1024 ^ i)) false | None => ValueError end.
Proof.
  intros (w0 & w1 & w2 & -> & W & S0 & S1 & S2 & T & NC).
  unfold parse_readable_size. rewrite strip_written by auto.
  destruct (pyfloat_show n W) as (q & Q1 & Q2). exists q. split; auto.
  assert (F := show_numchars n W).
  assert (SP : span numchar (lower (show n ++ match u with [] => [] | _ => w1 ++ u end))
               = (show n, lower (match u with [] => [] | _ => w1 ++ u end))).
  { rewrite lower_app, (lower_num (show n)) by auto. apply span_app; auto. intros c t E.
    destruct u as [|d u]; [discriminate|]. destruct w1 as [|x w1]; cbn [app lower map] in E; inversion E; subst.
    - rewrite lower_numchar. destruct (numchar d) eqn:ND; auto. apply numchar_In in ND. elim (NC d u eq_refl); auto.
    - rewrite lower_numchar. inversion S1; subst. now apply space_not_num. }
  rewrite SP. rewrite strip_lower.
  replace (strip (match u with [] => [] | _ => w1 ++ u end)) with u.
  - rewrite endswith_lower, Q1. destruct (endswith1 "%" u); auto.
  - symmetry. destruct u as [|d u]; [reflexivity|].
    rewrite <- (app_nil_r (d :: u)) at 1. apply strip_ok; auto. constructor.
Qed.

(** ** The property *)

(** A number and an optional unit (either case, and whatever follows the unit
    letter: "k", "KB", "kib"): the number times the unit's value. *)
Theorem C41_number_with_unit s n u m :
  written s n u -> ~ (exists t, u = t ++ lit "%") -> unit_value u = Some m ->
  exists q, parse_readable_size s = Parsed q false /\ (q == value n * inject_Z m)%Q.
Proof.
  intros W NP U. destruct (parse_written s n u W) as (q & Q & ->).
  destruct (endswith1 "%" u) eqn:E; [apply endswith1_spec in E; tauto|].
  assert (I := index_unit u). destruct (memory_size_index (lower u)) as [i|]; [|congruence].
  eexists. split; [reflexivity|]. rewrite U in I. inversion I; subst. now rewrite Q.
Qed.

(** A number and a percent sign: one hundredth, flagged as a percentage. *)
Theorem C41_percentage s n u :
  written s n u -> (exists t, u = t ++ lit "%") ->
  exists q, parse_readable_size s = Parsed q true /\ (q == value n / 100)%Q.
Proof.
  intros W NP. destruct (parse_written s n u W) as (q & Q & ->).
  change (lit "%") with ["%"] in NP. apply endswith1_spec in NP. rewrite NP.
  eexists. split; [reflexivity|]. now rewrite Q.
Qed.

(** A suffix whose first character is not a unit raises ValueError. *)
Theorem C41_unknown_first_letter_raises_partial s n u :
  written s n u -> ~ (exists t, u = t ++ lit "%") -> unit_value u = None ->
  parse_readable_size s = ValueError.
Proof.
  intros W NP U. destruct (parse_written s n u W) as (q & Q & ->).
  destruct (endswith1 "%" u) eqn:E; [apply endswith1_spec in E; tauto|].
  assert (I := index_unit u). destruct (memory_size_index (lower u)) as [i|]; [congruence|reflexivity].
Qed.

(** Anything that is not a number followed by a suffix raises ValueError. *)
Theorem C41_no_number_raises s :
  (forall n u, ~ written s n u) -> parse_readable_size s = ValueError.
Proof.
  intros NW. unfold parse_readable_size.
  destruct (strip_split s) as (w & w' & E & S1 & S2 & T).
  destruct (span_spec numchar (lower (strip s))) as (E2 & F & NH).
  destruct (span numchar (lower (strip s))) as [num suf]. cbn [fst snd] in *.
  destruct (pyfloat num) as [q|] eqn:PF; [|now destruct (endswith1 "%" (strip suf))].
  exfalso. destruct (pyfloat_inv _ _ PF) as (n & W & ->).
  unfold lower in E2. apply map_eq_app in E2. destruct E2 as (a & b & E2 & EA & EB).
  fold (lower a) in EA. fold (lower b) in EB. subst suf.
  assert (a = show n). { rewrite <- EA in F |- *. symmetry. now apply lower_num_inv. } subst a.
  destruct (strip_split b) as (x & x' & B & X1 & X2 & TB).
  apply (NW n (strip b)). exists w, x, (x' ++ w'). rewrite E, E2. rewrite B at 1.
  repeat split; auto; try apply W; try (apply Forall_app; auto); try apply TB.
  - now rewrite <- !app_assoc.
  - intros c t EC I. apply numchar_In in I.
    destruct x as [|y x].
    + cbn [app] in B, EC. rewrite B, EC in NH. cbn [app lower map] in NH. specialize (NH _ _ eq_refl).
      rewrite lower_numchar in NH. congruence.
    + inversion EC; subst y. inversion X1 as [|? ? HS _]; subst. apply space_not_num in HS. congruence.
Qed.


(** Numbers are returned as they are. *)
Theorem C41_numbers_unchanged q : parse_readable_number q = Parsed q false.
Proof. reflexivity. Qed.

(** ** The claim that fails: "unknown suffixes raise"

    Read as: the suffixes known are none, a unit letter alone, or one followed by
    b or ib; any other suffix raises. *)
Definition known_suffix (u : text) : Prop :=
  u = [] \/ exists c m t, u = c :: t /\ unit_letter c = Some m /\ In (lower t) [lit ""; lit "b"; lit "ib"].

Definition C41_claim : Prop := forall s n u,
  written s n u -> ~ (exists t, u = t ++ lit "%") -> ~ known_suffix u -> parse_readable_size s = ValueError.

Example ten_mangoes : written (lit "10 mangoes") (mkNum false (lit "10") false []) (lit "mangoes").
Proof.
  exists [], (lit " "), []. split; [reflexivity|]. split; [|split; [constructor|split; [repeat constructor|split; [constructor|split]]]].
  - repeat split; simpl; try discriminate; repeat (apply Forall_cons || apply Forall_nil); unfold digit; simpl; auto 15.
  - split; intros c t E; [inversion E; reflexivity|].
    assert (L : last (lit "mangoes") " " = c) by (rewrite E; apply last_last). now subst c.
  - intros c t E. inversion E. simpl. intuition discriminate.
Qed.

(** Only the first letter of the suffix is looked at: "10 mangoes" is 10 MiB. *)
Theorem C41_unknown_suffixes_raise_refuted : ~ C41_claim.
Proof.
  intros C. specialize (C _ _ _ ten_mangoes). assert (H : parse_readable_size (lit "10 mangoes") = ValueError).
  { apply C.
    - intros (t & E). assert (L : last (lit "mangoes") " " = "%") by (rewrite E; apply last_last). discriminate.
    - intros [E|(c & m & t & E & _ & I)]; [discriminate|]. inversion E; subst.
      simpl in I. repeat (destruct I as [I|I]; [discriminate|]). destruct I. }
  vm_compute in H. discriminate.
Qed.

(** ** Non-vacuity *)
Example ex_written : written (lit "  -1.50 KB ") (mkNum true (lit "1") true (lit "50")) (lit "KB").
Proof.
  exists (lit "  "), (lit " "), (lit " "). split; [reflexivity|].
  split; [|split; [repeat constructor|split; [repeat constructor|split; [repeat constructor|split]]]].
  - repeat split; simpl; try discriminate; repeat (apply Forall_cons || apply Forall_nil); unfold digit; simpl; auto 15.
  - split; intros c t E; [inversion E; reflexivity|].
    assert (L : last (lit "KB") " " = c) by (rewrite E; apply last_last). now subst c.
  - intros c t E. inversion E. simpl. intuition discriminate.
Qed.
Example ex_unit : unit_value (lit "KB") = Some 1024%Z /\ (value (mkNum true (lit "1") true (lit "50")) == -(3 # 2))%Q.
Proof. split; reflexivity. Qed.

Print Assumptions C41_number_with_unit.
Print Assumptions C41_percentage.
Print Assumptions C41_unknown_first_letter_raises_partial.
Print Assumptions C41_no_number_raises.
Print Assumptions C41_unknown_suffixes_raise_refuted.
