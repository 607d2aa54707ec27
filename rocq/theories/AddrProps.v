(** * C44: wildcard addresses of references are resolved to the contacted address

    How to read.  An address is [scheme://]host:port or host:port; the host is a
    name or an IPv4 address (no colon), or an IPv6 address written, as xoscar
    does, without brackets: groups of hexadecimal digits separated by colons,
    possibly empty.  The wildcard hosts are 0.0.0.0 and the IPv6 hosts all of
    whose digits are 0 (for instance [::]).  [show] writes an address as text,
    the only form the code sees. *)
From Coq Require Import List Bool Arith ZArith Ascii String Lia.
From Verif Require Import PyStr AddrModel.
Import ListNotations.
Open Scope list_scope.
Open Scope char_scope.

(** ** Specification *)
Inductive host :=
| Name (s : text)            (* a host name or an IPv4 address *)
| V6 (groups : list text).

Record address := mkAddr { scheme : option text; the_host : host; port : text }.

Definition show_host (h : host) : text :=
  match h with Name s => s | V6 gs => join (lit ":") gs end.
Definition show (a : address) : text :=
  match scheme a with Some s => s ++ lit "://" | None => [] end
  ++ show_host (the_host a) ++ lit ":" ++ port a.

Definition hexdigit (c : ascii) : Prop := In c (lit "0123456789abcdefABCDEF").

Definition plain (s : text) : Prop := ~ In ":" s /\ ~ In "/" s.
Definition wf_host (h : host) : Prop :=
  match h with
  | Name s => plain s
  | V6 gs => 2 <= List.length gs /\ Forall (Forall hexdigit) gs
  end.
Definition wf (a : address) : Prop :=
  match scheme a with Some s => ~ In ":" s | None => True end /\
  wf_host (the_host a) /\ plain (port a).

(** The host stands for "any interface". *)
Definition wildcard (h : host) : Prop :=
  match h with
  | Name s => s = lit "0.0.0.0"
  | V6 gs => Forall (Forall (fun c => c = "0")) gs
  end.

(** ** Lemmas *)
Lemma hexdigit_ok c : hexdigit c ->
  Ascii.eqb c "_" = false /\ is_space c = false /\ c <> ":" /\ c <> "/" /\ c <> "." /\ c <> "-" /\ c <> "+"
  /\ c <> "x" /\ c <> "X" /\ exists v, hexval c = Some v /\ (0 <= v)%Z /\ (v = 0%Z <-> c = "0").
Proof.
  intros H. unfold hexdigit in H. simpl in H.
  repeat (destruct H as [<-|H]; [
    do 9 (split; [try reflexivity; discriminate|]); eexists; split; [vm_compute; reflexivity|]; split; [lia|];
    split; intros K; (reflexivity || discriminate K || lia)|]).
  destruct H.
Qed.

Lemma int16_digits_ok g : Forall hexdigit g -> forall acc us, (0 <= acc)%Z -> (g <> [] \/ us = false) ->
  exists v, int16_digits acc us g = Some v /\ (0 <= v)%Z /\
    (v = 0%Z <-> acc = 0%Z /\ Forall (fun c => c = "0") g).
Proof.
  induction 1 as [|c g H F IH]; intros acc us P N.
  - destruct N as [N| ->]; [congruence|]. exists acc. cbn [int16_digits].
    split; [reflexivity|]. split; [lia|]. split; [auto|tauto].
  - destruct (hexdigit_ok c H) as (E & _ & _ & _ & _ & _ & _ & _ & _ & v & V & P2 & Z0).
    cbn [int16_digits]. rewrite E, V.
    destruct (IH (16 * acc + v)%Z false ltac:(lia) (or_intror eq_refl)) as (w & W & P3 & W0).
    exists w. split; [exact W|]. split; [lia|]. rewrite W0. split.
    + intros [A B]. split; [lia|]. constructor; auto. apply Z0. lia.
    + intros [-> B]. inversion B; subst. split; auto. assert (v = 0%Z) by now apply Z0. lia.
Qed.

Lemma hex_lstrip g : Forall hexdigit g -> lstrip g = g.
Proof. intros [|c g' H F]; auto. simpl. now rewrite (proj1 (proj2 (hexdigit_ok c H))). Qed.

Lemma hex_strip g : Forall hexdigit g -> strip g = g.
Proof. intros F. unfold strip. rewrite (hex_lstrip g F), (hex_lstrip (rev g)); [apply rev_involutive|now apply Forall_rev]. Qed.

Lemma int16_ok g : Forall hexdigit g -> g <> [] ->
  exists v, int16 g = Some v /\ (v = 0%Z <-> Forall (fun c => c = "0") g).
Proof.
  intros F N. unfold int16. rewrite hex_strip by auto.
  destruct (int16_digits_ok g F 0%Z true ltac:(lia) (or_introl N)) as (v & V & _ & V0).
  exists v. split; [|rewrite V0; tauto].
  destruct g as [|c g]; [congruence|]. inversion F as [|c' g' H F']; subst.
  destruct (hexdigit_ok c H) as (_ & _ & _ & _ & _ & NM & NP & _).
  assert (U : int16_unsigned (c :: g) = Some v).
  { destruct g as [|d g].
    - unfold int16_unsigned. rewrite V.
      destruct c as [[] [] [] [] [] [] [] []]; reflexivity.
    - inversion F' as [|d' g' H' F'']; subst.
      destruct (hexdigit_ok d H') as (_ & _ & _ & _ & _ & _ & _ & NX & NX2 & _).
      unfold int16_unsigned. rewrite V.
      destruct c as [[] [] [] [] [] [] [] []]; try reflexivity;
        destruct d as [[] [] [] [] [] [] [] []]; try reflexivity; congruence. }
  destruct c as [[] [] [] [] [] [] [] []]; first [exact U | elim NM; reflexivity | elim NP; reflexivity].
Qed.

Lemma all_zero_parts_ok gs : Forall (Forall hexdigit) gs ->
  exists b, all_zero_parts gs = Some b /\ (b = true <-> Forall (Forall (fun c => c = "0")) gs).
Proof.
  induction 1 as [|g gs F FF (b & B & IH)].
  - exists true. split; auto. split; auto.
  - destruct g as [|c g].
    + exists b. split; auto. rewrite IH. split; [constructor; auto|]. intros H. now inversion H.
    + destruct (int16_ok (c :: g) F ltac:(discriminate)) as (v & V & V0).
      cbn [all_zero_parts]. rewrite V. destruct (Z.eqb_spec v 0) as [->|N].
      * exists b. split; auto. rewrite IH. split; [constructor; tauto|]. intros H. now inversion H.
      * exists false. split; auto. split; [discriminate|]. intros H. inversion H; subst. tauto.
Qed.

Lemma join_In c gs x : In x (join [c] gs) -> x = c \/ exists g, In g gs /\ In x g.
Proof.
  induction gs as [|g gs IH]; [intros []|]. destruct gs as [|g' gs].
  - intros H. right. exists g. simpl. auto.
  - change (join [c] (g :: g' :: gs)) with (g ++ c :: join [c] (g' :: gs)).
    intros H. apply in_app_or in H. destruct H as [H|[<-|H]]; auto.
    + right. exists g. simpl. auto.
    + destruct (IH H) as [|(y & I & J)]; auto. right. exists y. simpl in *. auto.
Qed.

Lemma show_host_no_slash h : wf_host h -> ~ In "/" (show_host h).
Proof.
  destruct h as [s|gs]; simpl; [intros [_ ?]; auto|]. intros [_ F] I.
  change (lit ":") with [":"] in I. apply join_In in I. destruct I as [|(g & G & I)]; [discriminate|].
  rewrite Forall_forall in F. specialize (F _ G). rewrite Forall_forall in F. specialize (F _ I).
  now apply hexdigit_ok in F.
Qed.

(** What the code sees after dropping the scheme. *)
Lemma after_scheme a : wf a ->
  last_of (split (lit "://") (show a)) = show_host (the_host a) ++ ":" :: port a.
Proof.
  intros (S & H & P1 & P2). unfold show.
  assert (N : ~ In "/" (show_host (the_host a) ++ ":" :: port a)).
  { intros I. apply in_app_or in I. destruct I as [I|[I|I]]; [|discriminate|auto].
    now apply show_host_no_slash in I. }
  assert (B : split (lit "://") (show_host (the_host a) ++ ":" :: port a) = [show_host (the_host a) ++ ":" :: port a]).
  { apply (split_no_char _ "/"); auto. simpl. auto. }
  destruct (scheme a) as [s|]; change (lit ":" ++ port a) with (":" :: port a).
  - rewrite <- app_assoc. change (lit "://") with (":" :: lit "//") in *. rewrite split_first by auto.
    rewrite B. reflexivity.
  - rewrite app_nil_l, B. reflexivity.
Qed.

Lemma startswith_no_colon p s t : ~ In ":" p -> ~ In ":" s ->
  startswith (p ++ [":"]) (s ++ ":" :: t) = text_eqb s p.
Proof.
  revert s. induction p as [|c p IH]; intros s NP NS.
  - destruct s as [|d s]; auto. cbn [app startswith text_eqb]. destruct (Ascii.eqb_spec ":" d) as [<-|]; [elim NS; simpl; auto|reflexivity].
  - destruct s as [|d s].
    + cbn [app startswith text_eqb]. destruct (Ascii.eqb_spec c ":") as [->|]; auto. elim NP. simpl. auto.
    + cbn [app startswith text_eqb]. rewrite IH by (simpl in *; tauto).
      f_equal. destruct (Ascii.eqb_spec c d), (Ascii.eqb_spec d c); congruence.
Qed.

Lemma v4_ok a : wf a -> is_v4_zero_ip (show a) = true <->
  exists s, the_host a = Name s /\ s = lit "0.0.0.0".
Proof.
  intros W. unfold is_v4_zero_ip. rewrite after_scheme by auto. destruct W as (_ & H & _).
  destruct (the_host a) as [s|gs].
  - change (lit "0.0.0.0:") with (lit "0.0.0.0" ++ [":"]). simpl show_host.
    rewrite startswith_no_colon.
    + destruct (text_eqb_spec s (lit "0.0.0.0")); split; eauto; try discriminate.
      intros (s' & E & ->). inversion E. congruence.
    + simpl. intuition discriminate.
    + destruct H; auto.
  - split; [|intros (s & E & _); discriminate]. intros St. exfalso.
    destruct H as [L F]. destruct gs as [|g [|g' gs]]; simpl in L; try lia.
    simpl show_host in St. change (lit ":") with [":"] in St.
    change (join [":"] (g :: g' :: gs)) with (g ++ ":" :: join [":"] (g' :: gs)) in St.
    rewrite <- app_assoc in St. cbn [app] in St.
    change (lit "0.0.0.0:") with (lit "0.0.0.0" ++ [":"]) in St.
    inversion F as [|g0 gs0 G FF]; subst.
    rewrite startswith_no_colon in St.
    + destruct (text_eqb_spec g (lit "0.0.0.0")) as [->|]; [|discriminate].
      rewrite Forall_forall in G. specialize (G "." ltac:(simpl; auto)). apply hexdigit_ok in G. intuition.
    + simpl. intuition discriminate.
    + intros I. rewrite Forall_forall in G. apply G in I. apply hexdigit_ok in I. intuition.
Qed.

Lemma removelast_snoc {A} (l : list A) x : removelast (l ++ [x]) = l.
Proof. rewrite removelast_app by discriminate. simpl. apply app_nil_r. Qed.

Lemma groups_no_colon gs : Forall (Forall hexdigit) gs -> Forall (fun g => ~ In ":" g) gs.
Proof.
  intros F. eapply Forall_impl; [|exact F]. intros g G I. cbn beta in G. rewrite Forall_forall in G. apply G in I.
  apply hexdigit_ok in I. intuition.
Qed.

Lemma v6_ok a : wf a -> exists b, is_v6_zero_ip (show a) = Some b /\
  (b = true <-> exists gs, the_host a = V6 gs /\ wildcard (V6 gs)).
Proof.
  intros W. unfold is_v6_zero_ip. rewrite after_scheme by auto. destruct W as (_ & H & NC & _).
  change (lit ":") with [":"]. rewrite split1_app, (split1_none ":" (port a)) by auto.
  destruct (the_host a) as [s|gs]; cbn [show_host].
  - destruct H as [H _]. rewrite split1_none by auto. simpl. exists false. split; auto.
    split; [discriminate|]. intros (gs & E & _). discriminate.
  - destruct H as [L F]. rewrite split1_join; [|destruct gs; simpl in L; [lia|discriminate]|now apply groups_no_colon].
    rewrite app_length. cbn [List.length]. destruct (Nat.leb_spec (List.length gs + 1) 2); [lia|].
    rewrite removelast_snoc. destruct (all_zero_parts_ok gs F) as (b & B & B0).
    exists b. split; auto. rewrite B0. simpl. split; eauto. intros (gs' & E & X). inversion E. now subst.
Qed.

Lemma zero_ok a : wf a -> exists b, is_zero_ip (show a) = Some b /\ (b = true <-> wildcard (the_host a)).
Proof.
  intros W. unfold is_zero_ip. destruct (is_v4_zero_ip (show a)) eqn:E.
  - apply v4_ok in E; auto. destruct E as (s & -> & ->). exists true. split; auto. simpl. tauto.
  - destruct (v6_ok a W) as (b & B & B0). exists b. split; auto. rewrite B0. split.
    + intros (gs & -> & X). exact X.
    + intros X. destruct (the_host a) as [s|gs] eqn:HA; [|eauto]. exfalso. simpl in X.
      assert (is_v4_zero_ip (show a) = true) by (apply v4_ok; eauto). congruence.
Qed.

Lemma show_split a : plain (port a) ->
  split [":"] (show a) = split [":"] (match scheme a with Some s => s ++ lit "://" | None => [] end ++ show_host (the_host a)) ++ [port a].
Proof.
  intros [P _]. unfold show. change (lit ":" ++ port a) with (":" :: port a).
  rewrite app_assoc, split1_app, (split1_none ":" (port a)) by auto. reflexivity.
Qed.

(** ** The property *)

(** The recognised wildcards are exactly 0.0.0.0 and the all-zero IPv6 hosts,
    with or without scheme, whatever the port. *)
Theorem C44_wildcards_recognised a : wf a ->
  exists b, is_zero_ip (show a) = Some b /\ (b = true <-> wildcard (the_host a)).
Proof. exact (zero_ok a). Qed.

(** [fix_all_zero_ip], completely. *)
Theorem C44_resolved a c : wf a -> wf c ->
  (wildcard (the_host a) /\ ~ wildcard (the_host c) ->
     fix_all_zero_ip (show a) (show c) = Some (show (mkAddr (scheme c) (the_host c) (port a)))) /\
  (~ wildcard (the_host a) \/ wildcard (the_host c) ->
     fix_all_zero_ip (show a) (show c) = Some (show a)).
Proof.
  intros WA WC. destruct (zero_ok a WA) as (x & X & X0). destruct (zero_ok c WC) as (y & Y & Y0).
  unfold fix_all_zero_ip. destruct (text_eqb_spec (show a) (show c)) as [E|N].
  - split; auto. intros [A C]. exfalso. apply C. apply Y0. rewrite E in X. rewrite Y in X. inversion X. subst. now apply X0.
  - rewrite X, Y. split.
    + intros [A C]. destruct x; [|now apply X0 in A]. destruct y; [elim C; now apply Y0|].
      f_equal. change (lit ":") with [":"]. destruct WA as (_ & _ & PA), WC as (_ & _ & PC).
      rewrite !show_split by auto. unfold last_of. rewrite last_last, removelast_snoc, join_split1.
      unfold show. cbn [scheme the_host port]. now rewrite !app_assoc.
    + intros D. destruct x; auto. destruct y; auto. exfalso. destruct D as [D|D].
      * apply D. now apply X0.
      * now apply Y0 in D.
Qed.

(** The reference a client obtains through address [c] when the pool answers
    with [a]: its host is a wildcard only if the client itself contacted a
    wildcard; its port is the answered one; and unless the answer's host was a
    wildcard, it is the answer unchanged. *)
Theorem C44_obtained_reference a c : wf a -> wf c ->
  exists r, obtained_address (show c) (show a) = Some (show r) /\ wf r /\
    (wildcard (the_host r) -> wildcard (the_host c)) /\
    port r = port a /\
    (~ wildcard (the_host a) -> r = a) /\
    (wildcard (the_host a) -> ~ wildcard (the_host c) -> the_host r = the_host c /\ scheme r = scheme c).
Proof.
  intros WA WC. unfold obtained_address.
  destruct (zero_ok a WA) as (x & X & X0). destruct (zero_ok c WC) as (y & Y & Y0).
  destruct (C44_resolved a c WA WC) as [R1 R2].
  assert (K : (wildcard (the_host a) /\ ~ wildcard (the_host c)) \/ (~ wildcard (the_host a) \/ wildcard (the_host c))).
  { destruct x, y; rewrite <- X0, <- Y0; intuition congruence. }
  destruct (text_eqb_spec (show a) (show c)) as [E|N].
  - exists a. split; [reflexivity|]. split; [exact WA|]. split; [|split; [auto|split; [auto|]]].
    + intros A. apply Y0. rewrite E in X. rewrite Y in X. inversion X; subst. now apply X0.
    + intros A C. exfalso. apply C. apply Y0. rewrite E in X. rewrite Y in X. inversion X; subst. now apply X0.
  - destruct K as [[A C]|D].
    + rewrite R1 by auto. eexists. split; [reflexivity|]. split; [|cbn; tauto].
      destruct WA as (_ & _ & PA), WC as (SC & HC & _). repeat split; cbn; auto; apply PA.
    + rewrite R2 by auto. exists a. split; [reflexivity|]. split; [exact WA|]. tauto.
Qed.

(** A pool enters itself into the table of local pools iff its address is not a wildcard. *)
Theorem C44_wildcard_pools_not_registered a : wf a ->
  exists b, registers_local_pool (show a) = Some b /\ (b = true <-> ~ wildcard (the_host a)).
Proof.
  intros W. unfold registers_local_pool. destruct (zero_ok a W) as (b & -> & B). exists (negb b). split; auto.
  rewrite <- B. destruct b; simpl; intuition congruence.
Qed.

(** ** Non-vacuity *)
Definition ex_v4 := mkAddr (Some (lit "ucx")) (Name (lit "0.0.0.0")) (lit "1234").
Definition ex_v6 := mkAddr None (V6 [lit ""; lit ""; lit ""]) (lit "1234").
Definition ex_host := mkAddr (Some (lit "ucx")) (Name (lit "192.168.0.1")) (lit "5678").
Definition ex_host6 := mkAddr None (V6 [lit "2001"; lit "0db8"; lit "0"; lit ""; lit "C0A8"]) (lit "5678").

Ltac wf_tac := repeat split; simpl; try lia; try (intuition discriminate);
  repeat (apply Forall_cons || apply Forall_nil); unfold hexdigit; simpl; auto 30.
Example ex_wf : wf ex_v4 /\ wf ex_v6 /\ wf ex_host /\ wf ex_host6.
Proof.
  wf_tac.
Qed.
Example ex_shows : show ex_v4 = lit "ucx://0.0.0.0:1234" /\ show ex_v6 = lit ":::1234" /\ show ex_host6 = lit "2001:0db8:0::C0A8:5678".
Proof. repeat split. Qed.
Example ex_wild : wildcard (the_host ex_v4) /\ wildcard (the_host ex_v6) /\ ~ wildcard (the_host ex_host) /\ ~ wildcard (the_host ex_host6).
Proof.
  repeat split; simpl; try discriminate; repeat constructor.
  intros H. inversion H as [|? ? H1 _]; subst. inversion H1. discriminate.
Qed.
Example ex_fix : fix_all_zero_ip (lit "ucx://0.0.0.0:1234") (lit "ucx://192.168.0.1:5678") = Some (lit "ucx://192.168.0.1:1234")
  /\ fix_all_zero_ip (lit ":::1234") (lit "2001:0db8:0::C0A8:5678") = Some (lit "2001:0db8:0::C0A8:1234").
Proof. split; vm_compute; reflexivity. Qed.
Example ex_brackets : fix_all_zero_ip (lit "[::]:80") (lit "192.168.0.1:5678") = None.
Proof. vm_compute. reflexivity. Qed.

Print Assumptions C44_wildcards_recognised.
Print Assumptions C44_resolved.
Print Assumptions C44_obtained_reference.
Print Assumptions C44_wildcard_pools_not_registered.
