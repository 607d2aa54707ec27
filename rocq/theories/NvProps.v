(** * NvProps: C73, GPU queries describe the devices visible to the process

    Reading guide.  A machine has GPUs, numbered by NVML; CUDA numbers them in its own order
    and shows a process those listed in CUDA_VISIBLE_DEVICES.  The program may ask how many
    devices it has ([get_device_count]), which device its i-th is ([get_device_info]), on which
    device it has a context ([get_cuda_context]) and what a device number or UUID stands for
    ([get_index_and_uuid]), in any order and any number of times.

    Specification: [numeral] (a decimal number), [names] (what an entry of the variable stands
    for), [lists] (the variable as a list of entries), [uses] (a process has a context on a
    device), all defined below without the model's parsers. *)
From Coq Require Import List Bool Arith ZArith Lia Ascii String.
From Verif Require Import PyStr NvModel.
Import ListNotations.
Open Scope list_scope.
Open Scope nat_scope.

(** ** Specification *)

(** The decimal number [n]. *)
Definition numeral (e : text) (n : nat) : Prop :=
  exists ds, ds <> [] /\ Forall (fun d => d < 10) ds /\ e = map (fun d => ascii_of_nat (48 + d)) ds /\
             n = fold_left (fun a d => 10 * a + d) ds 0.
(** UUIDs are of the form GPU-..., without spaces and commas, and identify the GPU. *)
Definition uuid_form (u : text) : Prop :=
  (exists r, u = lit "GPU-" ++ r) /\ Forall (fun c => is_space c = false) u /\ ~ In ","%char u.
Definition sound_machine (m : machine) : Prop :=
  Forall (fun g => uuid_form (g_uuid g)) (gpus m) /\ NoDup (map g_uuid (gpus m)) /\
  NoDup (order m) /\ (forall g, In g (order m) <-> g < List.length (gpus m)).
(** Entry [e] stands for GPU [g]: it is its number in CUDA's order, or its UUID. *)
Definition names (m : machine) (e : text) (g : nat) : Prop :=
  (exists n, numeral e n /\ nth_error (order m) n = Some g) \/
  (exists d, nth_error (gpus m) g = Some d /\ e = g_uuid d).
(** The variable is the entries, separated by commas, and they stand for the GPUs [gs]. *)
Definition lists (m : machine) (v : text) (es : list text) (gs : list nat) : Prop :=
  es <> [] /\ v = join (lit ",") es /\ Forall2 (names m) es gs.
(** A process that does not change the variable. *)
Definition quiet (os : list op) : Prop := forall v, ~ In (SetVisible v) os.
(** The drivers are there. *)
Definition drivers (m : machine) : Prop := has_nvml m = true /\ has_cuda m = true.

(** ** Numerals and the parser *)
Lemma digit_ascii d : d < 10 -> Z.of_nat (nat_of_ascii (ascii_of_nat (48 + d))) = Z.of_nat (48 + d).
Proof. intros H. rewrite nat_ascii_embedding by lia. reflexivity. Qed.

Lemma int_digits_ok ds : Forall (fun d => d < 10) ds -> forall a,
  int_digits (Z.of_nat a) (map (fun d => ascii_of_nat (48 + d)) ds) = Some (Z.of_nat (fold_left (fun a d => 10 * a + d) ds a)).
Proof.
  induction 1 as [|d ds D F IH]; intros a; [reflexivity|]. cbn [map int_digits fold_left].
  rewrite digit_ascii by auto.
  replace ((48 <=? Z.of_nat (48 + d))%Z && (Z.of_nat (48 + d) <=? 57)%Z) with true
    by (symmetry; apply andb_true_iff; split; apply Z.leb_le; lia).
  replace (10 * Z.of_nat a + (Z.of_nat (48 + d) - 48))%Z with (Z.of_nat (10 * a + d)) by lia. apply IH.
Qed.

Lemma digit_not_space d : d < 10 -> is_space (ascii_of_nat (48 + d)) = false.
Proof. intros H. do 10 (destruct d as [|d]; [reflexivity|]). lia. Qed.
Lemma digit_not_comma d : d < 10 -> ascii_of_nat (48 + d) <> ","%char.
Proof. intros H. do 10 (destruct d as [|d]; [discriminate|]). lia. Qed.

Lemma no_space_trimmed s : Forall (fun c => is_space c = false) s -> trimmed s.
Proof.
  intros F. rewrite Forall_forall in F. split; intros c t ->; apply F; [now left|]. apply in_or_app. right. now left.
Qed.
Lemma strip_trimmed s : trimmed s -> strip s = s.
Proof. intros T. pose proof (strip_ok [] s [] (Forall_nil _) (Forall_nil _) T) as H. cbn [app] in H. now rewrite app_nil_r in H. Qed.

Lemma numeral_chars e n : numeral e n -> Forall (fun c => is_space c = false) e /\ ~ In ","%char e /\ e <> [].
Proof.
  intros (ds & N & F & -> & _). split; [|split].
  - apply Forall_map. eapply Forall_impl; [|exact F]. intros d D. now apply digit_not_space.
  - intros I. apply in_map_iff in I. destruct I as (d & E & I). rewrite Forall_forall in F. now apply (digit_not_comma d (F d I)).
  - destruct ds; [congruence|discriminate].
Qed.
Lemma py_int_plain c r : c <> "-"%char -> c <> "+"%char -> strip (c :: r) = c :: r -> py_int (c :: r) = digits (c :: r).
Proof.
  intros A B S. unfold py_int. rewrite S.
  destruct c as [b0 b1 b2 b3 b4 b5 b6 b7].
  destruct b0, b1, b2, b3, b4, b5, b6, b7; try reflexivity; congruence.
Qed.
Lemma py_int_numeral e n : numeral e n -> py_int e = Some (Z.of_nat n).
Proof.
  intros H. destruct (numeral_chars _ _ H) as (S & _ & _). destruct H as (ds & N & F & -> & ->).
  destruct ds as [|d ds]; [congruence|]. pose proof F as F'. inversion F' as [|x y D Fr]; subst.
  pose proof (strip_trimmed _ (no_space_trimmed _ S)) as E. cbn [map] in *.
  rewrite py_int_plain; auto.
  - change (int_digits (Z.of_nat 0) (map (fun d => ascii_of_nat (48 + d)) (d :: ds)) = Some (Z.of_nat (fold_left (fun a d => 10 * a + d) (d :: ds) 0))).
    now apply int_digits_ok.
  - clear -D. do 10 (destruct d as [|d]; [discriminate|]). lia.
  - clear -D. do 10 (destruct d as [|d]; [discriminate|]). lia.
Qed.
Lemma py_int_uuid u : uuid_form u -> py_int u = None.
Proof.
  intros ((r & ->) & S & _). pose proof (strip_trimmed _ (no_space_trimmed _ S)) as E. cbn [lit list_ascii_of_string app] in *.
  rewrite py_int_plain; auto; discriminate.
Qed.

Lemma find_from_spec {A} (f : A -> bool) (l : list A) : forall i k,
  find_from f i l = Some k <-> exists j, k = i + j /\ (exists x, nth_error l j = Some x /\ f x = true) /\
                                (forall j' x, j' < j -> nth_error l j' = Some x -> f x = false).
Proof.
  induction l as [|a l IH]; intros i k; cbn [find_from].
  - split; [discriminate|]. intros (j & _ & (x & H & _) & _). destruct j; discriminate.
  - destruct (f a) eqn:Fa.
    + split.
      * intros E. inversion E; subst. exists 0. split; [lia|]. split; [now exists a|]. intros; lia.
      * intros (j & -> & (x & H & Fx) & L). destruct j; [f_equal; lia|]. specialize (L 0 a ltac:(lia) eq_refl). congruence.
    + rewrite IH. split.
      * intros (j & -> & H & L). exists (S j). split; [lia|]. split; [exact H|]. intros [|j'] x J Hx; cbn in Hx; [congruence|]. apply (L j'); auto; lia.
      * intros (j & -> & (x & H & Fx) & L). destruct j; [cbn in H; congruence|]. exists j. split; [lia|]. split; [now exists x|].
        intros j' y J Hy. apply (L (S j')); auto; lia.
Qed.
Lemma find_from_none {A} (f : A -> bool) (l : list A) : forall i, find_from f i l = None <-> forall x, In x l -> f x = false.
Proof.
  induction l as [|a l IH]; intros i; cbn [find_from]; [split; [intros _ x []|reflexivity]|].
  destruct (f a) eqn:Fa; split.
  - discriminate.
  - intros H. specialize (H a (or_introl eq_refl)). congruence.
  - intros H x [<-|I]; auto. now apply (IH (S i)).
  - intros H. apply IH. intros x I. apply H. now right.
Qed.

Lemma by_uuid_ok m g d : sound_machine m -> nth_error (gpus m) g = Some d -> by_uuid m (g_uuid d) = Some g.
Proof.
  intros (_ & ND & _) H. apply find_from_spec. exists g. split; [reflexivity|]. split; [exists d; split; auto; apply text_eqb_refl|].
  intros j x J Hx. destruct (text_eqb_spec (g_uuid x) (g_uuid d)) as [E|]; auto. exfalso.
  rewrite NoDup_nth_error in ND. assert (j = g); [|lia]. apply ND.
  - rewrite map_length. apply nth_error_Some. congruence.
  - now rewrite (map_nth_error _ _ _ Hx), (map_nth_error _ _ _ H), E.
Qed.
Lemma gpu_form m g d : sound_machine m -> nth_error (gpus m) g = Some d -> uuid_form (g_uuid d).
Proof. intros (F & _) H. rewrite Forall_forall in F. apply F. now apply nth_error_In in H. Qed.

Lemma at_index_nat {A} (l : list A) n : at_index l (Z.of_nat n) = nth_error l n.
Proof. unfold at_index. replace (Z.of_nat n <? 0)%Z with false by (symmetry; apply Z.ltb_ge; lia). now rewrite Nat2Z.id. Qed.

Lemma named_ok m e g : sound_machine m -> names m e g -> named m e = Some g.
Proof.
  intros SM [(n & N & H)|(d & H & ->)]; unfold named.
  - rewrite (py_int_numeral _ _ N), at_index_nat. exact H.
  - rewrite py_int_uuid by now apply (gpu_form m g). now apply by_uuid_ok.
Qed.
Lemma shown_ok m es gs : sound_machine m -> Forall2 (names m) es gs -> shown m es = gs.
Proof. intros SM. induction 1 as [|e g es gs N F IH]; [reflexivity|]. cbn [shown]. now rewrite (named_ok m e g SM N), IH. Qed.

Lemma names_chars m e g : sound_machine m -> names m e g -> Forall (fun c => is_space c = false) e /\ ~ In ","%char e /\ e <> [] /\ e <> lit "-1".
Proof.
  intros SM [(n & N & _)|(d & H & ->)].
  - destruct (numeral_chars _ _ N) as (A & B & C). repeat split; auto. intros ->. apply py_int_numeral in N. cbn in N. destruct n; discriminate.
  - destruct (gpu_form m g d SM H) as ((r & E) & A & B). repeat split; auto; rewrite E; discriminate.
Qed.

Lemma lists_split m v es gs : sound_machine m -> lists m v es gs -> split (lit ",") v = es.
Proof.
  intros SM (N & -> & F). apply split1_join; auto. clear N. induction F as [|e g es gs H F IH]; constructor; auto.
  now apply (names_chars m e g).
Qed.
Lemma join_chars (P : ascii -> Prop) l : P ","%char -> Forall (Forall P) l -> Forall P (join (lit ",") l).
Proof.
  intros C F. induction F as [|x l X F IH]; [constructor|]. destruct l as [|y l]; [exact X|].
  change (join (lit ",") (x :: y :: l)) with (x ++ ","%char :: join (lit ",") (y :: l)). apply Forall_app. split; auto.
Qed.
Lemma lists_strip m v es gs : sound_machine m -> lists m v es gs ->
  strip v = v /\ v <> [] /\ v <> lit "-1".
Proof.
  intros SM L. pose proof (lists_split _ _ _ _ SM L) as SP. destruct L as (N & E & F). split; [|split].
  - apply strip_trimmed, no_space_trimmed. rewrite E. apply join_chars; [reflexivity|]. clear -SM F.
    induction F as [|e g es gs H F IH]; constructor; auto. now apply (names_chars m e g).
  - intros ->. cbn in SP. subst es. inversion F as [|? ? ? ? H _]; subst. apply names_chars in H; tauto.
  - intros ->. cbn in SP. subst es. inversion F as [|? ? ? ? H _]; subst. apply names_chars in H; tauto.
Qed.

(** ** No query disturbs the answer to a later one *)
Record J (m : machine) (e : option text) (s : st) : Prop := {
  j_env : env s = e;
  j_cuda : cuda s = None \/ cuda s = Some (cuda_visible m e);
  j_ready : ready s = true -> ready (init m (fresh_process e)) = true /\ cuda s = Some (cuda_visible m e);
  j_count : gpu_count s = None \/ gpu_count s = snd (get_device_count m (fresh_process e));
  j_info : forall i x, cached (device_infos s) i = Some x -> snd (get_device_info m (fresh_process e) i) = Ans x }.

Lemma J_fresh m e : J m e (fresh_process e).
Proof. constructor; cbn; auto; discriminate. Qed.

Lemma J_init m e s : J m e s -> ready (init m s) = ready (init m (fresh_process e)) /\ env (init m s) = e /\
  gpu_count (init m s) = gpu_count s /\ device_infos (init m s) = device_infos s /\
  (has_cuda m = true -> cuda (init m s) = Some (cuda_visible m e)) /\ J m e (init m s).
Proof.
  intros [E C R G I]. destruct (ready s) eqn:Rs.
  - destruct (R eq_refl) as [R1 R2]. assert (X : init m s = s) by (unfold init; now rewrite Rs). rewrite X.
    repeat split; auto; try congruence.
  - assert (V : match cuda s with Some l => l | None => cuda_visible m (env s) end = cuda_visible m e).
    { rewrite E. destruct C as [-> | ->]; reflexivity. }
    unfold init. rewrite Rs, V. cbn [ready env gpu_count device_infos cuda fresh_process].
    split; [reflexivity|]. split; [exact E|]. split; [reflexivity|]. split; [reflexivity|].
    split; [now intros ->|]. constructor; cbn [ready env gpu_count device_infos cuda]; auto.
    + destruct (has_cuda m); auto.
    + intros H. split; [exact H|]. destruct (has_cuda m); auto. now rewrite andb_false_r in H.
Qed.

Lemma count_none m s e : gpu_count s = None -> env s = e ->
  snd (get_device_count m s) = snd (get_device_count m (fresh_process e)) /\
  fst (get_device_count m s) =
    mkSt (env s) (cuda s) (ready s) (snd (get_device_count m (fresh_process e))) (device_infos s).
Proof.
  intros G E. unfold get_device_count. cbn [fresh_process gpu_count env]. rewrite G, E.
  destruct (has_nvml m); cbn [fst snd]; split; auto. destruct s. cbn in *. now subst.
Qed.
Lemma J_count m e s : J m e s ->
  snd (get_device_count m s) = snd (get_device_count m (fresh_process e)) /\ J m e (fst (get_device_count m s)).
Proof.
  intros [E C R G I]. destruct (gpu_count s) as [n|] eqn:Gs.
  - assert (X : get_device_count m s = (s, Some n)) by (unfold get_device_count; now rewrite Gs). rewrite X.
    destruct G as [G|G]; [discriminate|]. split; [exact G|]. constructor; cbn [fst]; auto. right. congruence.
  - destruct (count_none m s e Gs E) as (A & B). split; [exact A|]. rewrite B. constructor; cbn [env cuda ready gpu_count device_infos]; auto.
Qed.

Lemma J_get m e s i : J m e s ->
  snd (get_device_info m s i) = snd (get_device_info m (fresh_process e) i) /\ J m e (fst (get_device_info m s i)).
Proof.
  intros K. unfold get_device_info at 1 3. destruct (cached (device_infos s) i) as [x|] eqn:Cs.
  - split; [|exact K]. symmetry. now apply (j_info m e s K).
  - destruct (J_init m e s K) as (R1 & E1 & G1 & D1 & C1 & K1).
    destruct (J_init m e _ (J_fresh m e)) as (_ & E2 & _ & D2 & C2 & K2).
    assert (F : get_device_info m (fresh_process e) i = get_device_info m (fresh_process e) i) by reflexivity.
    unfold get_device_info at 2 in F. cbn [fresh_process device_infos cached] in F.
    change (mkSt e None false None []) with (fresh_process e) in F.
    rewrite R1. destruct (ready (init m (fresh_process e))) eqn:Rf; cbn [negb] in *; [|rewrite F; auto].
    assert (HC : has_cuda m = true).
    { unfold init in Rf. cbn in Rf. destruct (has_cuda m); auto. now rewrite andb_false_r in Rf. }
    rewrite (C1 HC). rewrite (C2 HC) in F. rewrite E1. rewrite E2 in F.
    destruct (at_index (cuda_visible m e) i) as [g|]; [|rewrite F; auto].
    destruct (nth_error (gpus m) g) as [d|]; [|rewrite F; auto].
    assert (K3 : forall z, snd (get_device_info m (fresh_process e) i) = Ans (mkInfo z (g_uuid d)) ->
      J m e (mkSt e (cuda (init m s)) (ready (init m s)) (gpu_count (init m s)) ((i, mkInfo z (g_uuid d)) :: device_infos (init m s)))).
    { intros z Hz. destruct K1 as [E' C' R' G' I']. constructor; cbn [env cuda ready gpu_count device_infos]; auto.
      intros j x. cbn [cached]. destruct (Z.eqb_spec i j) as [<-|]; [intros Q; inversion Q; subst; exact Hz|apply I']. }
    rewrite (C1 HC), R1 in K3.
    destruct e as [v|].
    + destruct (ints (split (lit ",") v)) as [zs|]; [|rewrite F; auto].
      destruct (at_index zs i) as [z|]; [|rewrite F; auto].
      rewrite F; cbn [snd fst]. split; [reflexivity|]. apply K3. now rewrite F.
    + rewrite F; cbn [snd fst]. split; [reflexivity|]. apply K3. now rewrite F.
Qed.

Lemma J_run m e os : quiet os -> forall s, J m e s -> J m e (run m s os).
Proof.
  unfold run. induction os as [|o os IH]; intros Q s K; [exact K|]. cbn [fold_left]. apply IH.
  - intros v I. apply (Q v). now right.
  - destruct o; cbn [step]; [now apply J_count|now apply J_get| |exfalso; apply (Q v); now left].
    unfold get_cuda_context. destruct (J_init m e s K) as (_ & _ & _ & _ & _ & K1). destruct (ready (init m s)); exact K1.
Qed.

(** As long as the process does not change the variable, the answers do not depend on what was
    asked before. *)
Theorem C73_answers_do_not_change : forall m e os, quiet os ->
  let s := run m (fresh_process e) os in
  snd (get_device_count m s) = snd (get_device_count m (fresh_process e)) /\
  (forall i, snd (get_device_info m s i) = snd (get_device_info m (fresh_process e) i)) /\
  (forall me, snd (get_cuda_context m me s) = snd (get_cuda_context m me (fresh_process e))).
Proof.
  intros m e os Q s. assert (K : J m e s) by (apply J_run; auto using J_fresh). split; [now apply J_count|]. split; [intros i; now apply J_get|].
  intros me. unfold get_cuda_context. destruct (J_init m e s K) as (R & _). rewrite R.
  destruct (ready (init m (fresh_process e))); reflexivity.
Qed.

Lemma Forall2_len {A B} (R : A -> B -> Prop) l l' : Forall2 R l l' -> List.length l = List.length l'.
Proof. induction 1; cbn; auto. Qed.

(** ** How many *)

(** Full claim: the count is the number of devices CUDA shows. *)
Definition C73_count_claim : Prop := forall m e os, sound_machine m -> drivers m -> quiet os ->
  snd (get_device_count m (run m (fresh_process e) os)) = Some (List.length (cuda_visible m e)).

(** It holds when the variable is not set, empty, -1, or a list whose entries all stand for a
    GPU. *)
Theorem C73_count_partial : forall m os, sound_machine m -> has_nvml m = true -> quiet os ->
  snd (get_device_count m (run m (fresh_process None) os)) = Some (List.length (gpus m)) /\
  (forall v, v = lit "" \/ v = lit "-1" ->
     snd (get_device_count m (run m (fresh_process (Some v)) os)) = Some 0 /\ cuda_visible m (Some v) = []) /\
  (forall v es gs, lists m v es gs ->
     snd (get_device_count m (run m (fresh_process (Some v)) os)) = Some (List.length gs) /\ cuda_visible m (Some v) = gs).
Proof.
  intros m os SM HN Q. split; [|split].
  - destruct (C73_answers_do_not_change m None os Q) as (-> & _). unfold get_device_count. cbn. now rewrite HN.
  - intros v V. destruct (C73_answers_do_not_change m (Some v) os Q) as (-> & _). unfold get_device_count. cbn [fresh_process gpu_count env]. rewrite HN.
    destruct V as [-> | ->]; (split; [reflexivity|]); cbn; [|reflexivity].
    unfold named. cbn. destruct (by_uuid m []) as [g|] eqn:B; auto. exfalso.
    apply find_from_spec in B. destruct B as (j & _ & (x & H & E) & _). destruct (text_eqb_spec (g_uuid x) []) as [E'|]; [|discriminate].
    destruct (gpu_form m j x SM H) as ((r & Z) & _). rewrite E' in Z. discriminate.
  - intros v es gs L. destruct (C73_answers_do_not_change m (Some v) os Q) as (-> & _). unfold get_device_count. cbn [fresh_process gpu_count env]. rewrite HN.
    destruct (lists_strip _ _ _ _ SM L) as (-> & N1 & N2). pose proof (lists_split _ _ _ _ SM L) as SP. rewrite SP.
    destruct (text_eqb_spec v []); [congruence|]. destruct (text_eqb_spec v (lit "-1")); [congruence|]. cbn [orb snd].
    unfold cuda_visible. rewrite SP. destruct L as (_ & _ & F). rewrite (shown_ok _ _ _ SM F).
    split; auto. f_equal. now apply Forall2_len in F.
Qed.
(** An unset variable shows all GPUs. *)
Theorem C73_count_unset_is_visible : forall m, sound_machine m -> List.length (cuda_visible m None) = List.length (gpus m).
Proof.
  intros m (_ & _ & ND & O). cbn [cuda_visible]. apply Nat.le_antisymm.
  - rewrite <- (seq_length (List.length (gpus m)) 0). apply NoDup_incl_length; auto. intros g H. apply in_seq. apply O in H. lia.
  - rewrite <- (seq_length (List.length (gpus m)) 0) at 1. apply NoDup_incl_length; [apply seq_NoDup|]. intros g H. apply in_seq in H. apply O. lia.
Qed.

(** Once asked, the answer is the same for ever, whatever is done to the variable. *)
Theorem C73_count_kept : forall m s n os, snd (get_device_count m s) = Some n ->
  snd (get_device_count m (run m s (Count :: os))) = Some n.
Proof.
  intros m s n os H. assert (A : gpu_count (step m s Count) = Some n).
  { cbn [step]. unfold get_device_count in *. destruct (gpu_count s) eqn:E; cbn in *; [congruence|]. destruct (has_nvml m); cbn in *; congruence. }
  unfold run. cbn [fold_left]. revert A. generalize (step m s Count). clear. induction os as [|o os IH]; intros s A; cbn [fold_left].
  - unfold get_device_count. now rewrite A.
  - apply IH. destruct o; cbn [step].
    + unfold get_device_count. now rewrite A.
    + assert (I : gpu_count (init m s) = Some n) by (unfold init; destruct (ready s); auto).
      unfold get_device_info.
      repeat match goal with |- context [match ?x with _ => _ end] => destruct x; cbn [fst gpu_count negb]; try exact A; try exact I end.
    + unfold get_cuda_context. destruct (ready (init m s)) eqn:R; cbn; unfold init; destruct (ready s); auto.
    + exact A.
Qed.

(** ** Which *)

(** Full claim: the i-th device the process sees is described by its UUID. *)
Definition C73_info_claim : Prop := forall m e os i g d, sound_machine m -> drivers m -> quiet os ->
  nth_error (cuda_visible m e) i = Some g -> nth_error (gpus m) g = Some d ->
  exists x, snd (get_device_info m (run m (fresh_process e) os) (Z.of_nat i)) = Ans x /\ i_uuid x = g_uuid d.

Lemma ints_numerals es ns : Forall2 numeral es ns -> ints es = Some (map Z.of_nat ns).
Proof. induction 1 as [|e n es ns N F IH]; [reflexivity|]. cbn [ints map]. now rewrite (py_int_numeral _ _ N), IH. Qed.
Lemma ready_fresh m e : drivers m -> cuda_visible m e <> [] -> ready (init m (fresh_process e)) = true /\ cuda (init m (fresh_process e)) = Some (cuda_visible m e).
Proof.
  intros (A & B) N. unfold init. cbn. rewrite A, B. destruct (cuda_visible m e); [congruence|]. auto.
Qed.
Lemma info_fresh m e i : drivers m -> cuda_visible m e <> [] ->
  snd (get_device_info m (fresh_process e) i) =
    match at_index (cuda_visible m e) i with
    | None => NVError
    | Some g => match nth_error (gpus m) g with
                | None => NVError
                | Some d => match e with
                            | None => Ans (mkInfo i (g_uuid d))
                            | Some v => match ints (split (lit ",") v) with
                                        | None => ValueError
                                        | Some zs => match at_index zs i with Some z => Ans (mkInfo z (g_uuid d)) | None => IndexError end
                                        end
                            end
                end
    end.
Proof.
  intros D N. destruct (ready_fresh m e D N) as (R & C). destruct (J_init m e _ (J_fresh m e)) as (_ & E & _).
  unfold get_device_info. cbn [fresh_process device_infos cached]. change (mkSt e None false None []) with (fresh_process e).
  rewrite R, C, E. cbn [negb]. destruct (at_index _ i); auto. destruct (nth_error _ _); auto. destruct e as [v|]; auto.
  destruct (ints _); auto. destruct (at_index l i); auto.
Qed.

(** It holds when the variable is not set or is a list of numbers.  The index reported is then
    the entry itself (CUDA's number for the device), not NVML's number.  A number that is not
    the number of a visible device is refused. *)
Theorem C73_info_partial : forall m os, sound_machine m -> drivers m -> gpus m <> [] -> quiet os ->
  (forall i, let r := snd (get_device_info m (run m (fresh_process None) os) i) in
     (forall g d, (0 <= i)%Z -> nth_error (order m) (Z.to_nat i) = Some g -> nth_error (gpus m) g = Some d ->
        r = Ans (mkInfo i (g_uuid d))) /\
     ((i < 0 \/ Z.of_nat (List.length (gpus m)) <= i)%Z -> r = NVError)) /\
  (forall v es gs ns, lists m v es gs -> Forall2 numeral es ns ->
   forall i, let r := snd (get_device_info m (run m (fresh_process (Some v)) os) i) in
     (forall g d n, (0 <= i)%Z -> nth_error gs (Z.to_nat i) = Some g -> nth_error (gpus m) g = Some d ->
        nth_error ns (Z.to_nat i) = Some n -> r = Ans (mkInfo (Z.of_nat n) (g_uuid d))) /\
     ((i < 0 \/ Z.of_nat (List.length es) <= i)%Z -> r = NVError)).
Proof.
  intros m os SM D NE Q. split.
  - intros i r. assert (N : cuda_visible m None <> []).
    { intros E. pose proof (C73_count_unset_is_visible m SM) as L. rewrite E in L. destruct (gpus m); [congruence|discriminate]. }
    assert (r = snd (get_device_info m (fresh_process None) i)) as -> by (apply C73_answers_do_not_change; auto).
    rewrite info_fresh by auto. cbn [cuda_visible]. split.
    + intros g d I A B. unfold at_index. replace (i <? 0)%Z with false by (symmetry; apply Z.ltb_ge; lia). now rewrite A, B.
    + intros O. pose proof (C73_count_unset_is_visible m SM) as L. cbn [cuda_visible] in L. unfold at_index. destruct (Z.ltb_spec i 0); auto.
      replace (nth_error (order m) (Z.to_nat i)) with (@None nat); auto. symmetry. apply nth_error_None. lia.
  - intros v es gs ns L NU i r. pose proof (lists_split _ _ _ _ SM L) as SP.
    destruct L as (NE' & V & F). assert (CV : cuda_visible m (Some v) = gs) by (unfold cuda_visible; rewrite SP; now apply shown_ok).
    assert (N : cuda_visible m (Some v) <> []).
    { rewrite CV. intros ->. inversion F; congruence. }
    assert (r = snd (get_device_info m (fresh_process (Some v)) i)) as -> by (apply C73_answers_do_not_change; auto).
    rewrite info_fresh by auto. rewrite CV, SP, (ints_numerals _ _ NU). pose proof (Forall2_len _ _ _ F) as LF. split.
    + intros g d n I A B C. unfold at_index. replace (i <? 0)%Z with false by (symmetry; apply Z.ltb_ge; lia).
      now rewrite A, B, (map_nth_error _ _ _ C).
    + intros O. unfold at_index. destruct (Z.ltb_spec i 0); auto.
      replace (nth_error gs (Z.to_nat i)) with (@None nat); auto. symmetry. apply nth_error_None. lia.
Qed.

(** With a UUID anywhere in the list, every question about a visible device raises ValueError. *)
Theorem C73_info_uuid_refuted : forall m v es gs os i, sound_machine m -> drivers m -> quiet os -> lists m v es gs ->
  (exists d, In d (gpus m) /\ In (g_uuid d) es) -> i < List.length es ->
  snd (get_device_info m (run m (fresh_process (Some v)) os) (Z.of_nat i)) = ValueError.
Proof.
  intros m v es gs os i SM D Q L (d & ID & IE) I. pose proof (lists_split _ _ _ _ SM L) as SP.
  destruct L as (NE' & V & F). assert (CV : cuda_visible m (Some v) = gs) by (unfold cuda_visible; rewrite SP; now apply shown_ok).
  assert (N : cuda_visible m (Some v) <> []) by (rewrite CV; intros ->; inversion F; congruence).
  destruct (C73_answers_do_not_change m (Some v) os Q) as (_ & -> & _). rewrite info_fresh by auto.
  rewrite CV, SP, at_index_nat. pose proof (Forall2_len _ _ _ F) as LF.
  assert (G : Forall (fun g => g < List.length (gpus m)) gs).
  { clear -F SM. induction F as [|e g es gs H F IH]; constructor; auto. destruct H as [(n & _ & H)|(x & H & _)].
    - apply SM. now apply nth_error_In in H.
    - apply nth_error_Some. congruence. }
  destruct (nth_error gs i) as [g|] eqn:Eg; [|apply nth_error_None in Eg; lia].
  assert (g < List.length (gpus m)) as Lg by (rewrite Forall_forall in G; apply G; now apply nth_error_In in Eg).
  destruct (nth_error (gpus m) g) as [x|] eqn:Ex; [|apply nth_error_None in Ex; lia].
  assert (ints es = None) as ->; auto.
  assert (P : py_int (g_uuid d) = None). { apply In_nth_error in ID. destruct ID as (k & K). apply py_int_uuid. now apply (gpu_form m k). }
  clear -IE P. induction es as [|e es IH]; [destruct IE|]. cbn [ints]. destruct IE as [->|IE]; [now rewrite P|].
  rewrite IH by auto. now destruct (py_int e).
Qed.

(** ** A device number or UUID *)
Theorem C73_index_and_uuid : forall m, sound_machine m -> has_nvml m = true ->
  (forall e n d, numeral e n -> nth_error (gpus m) n = Some d -> get_index_and_uuid m e = Ans (n, g_uuid d)) /\
  (forall n d, nth_error (gpus m) n = Some d -> get_index_and_uuid m (g_uuid d) = Ans (n, g_uuid d)) /\
  (forall e n, numeral e n -> List.length (gpus m) <= n -> get_index_and_uuid m e = NVError) /\
  (forall e, uuid_form e -> ~ In e (map g_uuid (gpus m)) -> get_index_and_uuid m e = NVError) /\
  (forall e n u, get_index_and_uuid m e = Ans (n, u) -> nth_error (map g_uuid (gpus m)) n = Some u).
Proof.
  intros m SM HN. unfold get_index_and_uuid. rewrite HN. cbn [negb]. split; [|split; [|split; [|split]]].
  - intros e n d N H. rewrite (py_int_numeral _ _ N). replace (Z.of_nat n <? 0)%Z with false by (symmetry; apply Z.ltb_ge; lia).
    now rewrite Nat2Z.id, H.
  - intros n d H. rewrite py_int_uuid by now apply (gpu_form m n). now rewrite (by_uuid_ok m n d), H.
  - intros e n N H. rewrite (py_int_numeral _ _ N). replace (Z.of_nat n <? 0)%Z with false by (symmetry; apply Z.ltb_ge; lia).
    rewrite Nat2Z.id. replace (nth_error (gpus m) n) with (@None gpu); auto. symmetry. now apply nth_error_None.
  - intros e U N. rewrite py_int_uuid by auto. replace (by_uuid m e) with (@None nat); auto. symmetry. apply find_from_none.
    intros x I. destruct (text_eqb_spec (g_uuid x) e) as [E|]; auto. elim N. rewrite <- E. now apply in_map.
  - intros e n u. assert (G : forall g, match nth_error (gpus m) g with Some d => Ans (g, g_uuid d) | None => NVError end = Ans (n, u) ->
      nth_error (map g_uuid (gpus m)) n = Some u).
    { intros g. destruct (nth_error (gpus m) g) as [d|] eqn:E; [|discriminate]. intros Q. inversion Q; subst. now apply map_nth_error. }
    destruct (py_int e) as [z|]; [destruct (z <? 0)%Z; [discriminate|apply G]|]. destruct (by_uuid m e); [apply G|discriminate].
Qed.

(** ** The context of the process *)

(** Process [p] has a context on GPU [i] (on slice [k] of it, if it is split). *)
Definition uses (m : machine) (p : pid) (i : nat) (k : option nat) : Prop :=
  exists d, nth_error (gpus m) i = Some d /\
    match mig d, k with
    | None, None => In p (at_second (g_use d))
    | Some sl, Some j => exists u, nth_error sl j = Some (Some u) /\ In p (at_second u)
    | _, _ => False
    end.
(** The number of processes on a device did not more than double (plus 5) during the query, and
    [p] did not begin to use it during the query. *)
Definition calm_use (p : pid) (u : usage) : Prop :=
  List.length (at_second u) <= 2 * List.length (at_first u) + 5 /\ (In p (at_second u) -> at_first u <> []).
Definition calm (m : machine) (p : pid) : Prop :=
  forall d, In d (gpus m) -> calm_use p (g_use d) /\ (forall sl u, mig d = Some sl -> In (Some u) sl -> calm_use p u).
Definition before (i : nat) (k : option nat) (i' : nat) (k' : option nat) : Prop :=
  i < i' \/ (i = i' /\ match k, k' with Some a, Some b => a < b | _, _ => False end).

Lemma matches_ok p u : calm_use p u -> running_process_matches p u = Ans (existsb (Nat.eqb p) (at_second u)).
Proof.
  intros (L & F). unfold running_process_matches, get_compute_running_processes.
  destruct (at_first u) as [|x l] eqn:E.
  - destruct (existsb (Nat.eqb p) (at_second u)) eqn:X; auto. apply existsb_exists in X. destruct X as (y & I & Y). apply Nat.eqb_eq in Y. subst y. now elim (F I).
  - replace (List.length (at_second u) <=? 2 * List.length (x :: l) + 5) with true by (symmetry; apply Nat.leb_le; exact L). reflexivity.
Qed.
Lemma existsb_pid p l : existsb (Nat.eqb p) l = true <-> In p l.
Proof.
  rewrite existsb_exists. split.
  - intros (y & I & Y). apply Nat.eqb_eq in Y. now subst.
  - intros I. exists p. split; auto. apply Nat.eqb_refl.
Qed.
Lemma existsb_pid_f p l : existsb (Nat.eqb p) l = false <-> ~ In p l.
Proof. rewrite <- existsb_pid. destruct (existsb _ _); split; congruence. Qed.

Lemma search_slices_ok p (f : nat -> context) sl : (forall u, In (Some u) sl -> calm_use p u) -> forall j,
  (exists k u, search_slices p f j sl = Ans (Some (f (j + k))) /\ nth_error sl k = Some (Some u) /\ In p (at_second u) /\
     (forall k' u', k' < k -> nth_error sl k' = Some (Some u') -> ~ In p (at_second u'))) \/
  (search_slices p f j sl = Ans None /\ forall k u, nth_error sl k = Some (Some u) -> ~ In p (at_second u)).
Proof.
  induction sl as [|[u|] sl IH]; intros C j; cbn [search_slices].
  - right. split; auto. intros [|k] u; discriminate.
  - rewrite matches_ok by (apply C; now left). destruct (existsb (Nat.eqb p) (at_second u)) eqn:E.
    + left. exists 0, u. rewrite Nat.add_0_r. apply existsb_pid in E. repeat split; auto. intros; lia.
    + apply existsb_pid_f in E. destruct (IH (fun u I => C u (or_intror I)) (S j)) as [(k & v & A & B & D & M)|(A & B)].
      * left. exists (S k), v. replace (j + S k) with (S j + k) by lia. repeat split; auto.
        intros [|k'] u' K H; cbn in H; [inversion H; subst; try exact E|]. apply (M k'); auto; lia.
      * right. split; auto. intros [|k] u' H; cbn in H; [inversion H; subst; try exact E|]. now apply (B k).
  - destruct (IH (fun u I => C u (or_intror I)) (S j)) as [(k & v & A & B & D & M)|(A & B)].
    + left. exists (S k), v. replace (j + S k) with (S j + k) by lia. repeat split; auto.
      intros [|k'] u' K H; cbn in H; [inversion H; subst; try exact E|]. apply (M k'); auto; lia.
    + right. split; auto. intros [|k] u' H; cbn in H; [inversion H; subst; try exact E|]. now apply (B k).
Qed.

Lemma search_ok p l : (forall d, In d l -> calm_use p (g_use d) /\ (forall sl u, mig d = Some sl -> In (Some u) sl -> calm_use p u)) -> forall i,
  (exists n k d, search p i l = Ans (OnGpu (i + n) (g_uuid d) k) /\ nth_error l n = Some d /\
     uses (mkMachine l [] true true) p n k /\ (forall n' k', before n' k' n k -> ~ uses (mkMachine l [] true true) p n' k')) \/
  (search p i l = Ans NoContext /\ forall n k, ~ uses (mkMachine l [] true true) p n k).
Proof.
  assert (CONS : forall d l n k, uses (mkMachine (d :: l) [] true true) p (S n) k <-> uses (mkMachine l [] true true) p n k) by (intros; unfold uses; cbn; tauto).
  assert (STEP : forall d l i, (forall k, ~ uses (mkMachine (d :: l) [] true true) p 0 k) ->
    (exists n k x, search p (S i) l = Ans (OnGpu (S i + n) (g_uuid x) k) /\ nth_error l n = Some x /\
       uses (mkMachine l [] true true) p n k /\ (forall n' k', before n' k' n k -> ~ uses (mkMachine l [] true true) p n' k')) \/
    (search p (S i) l = Ans NoContext /\ forall n k, ~ uses (mkMachine l [] true true) p n k) ->
    (exists n k x, search p (S i) l = Ans (OnGpu (i + n) (g_uuid x) k) /\ nth_error (d :: l) n = Some x /\
       uses (mkMachine (d :: l) [] true true) p n k /\ (forall n' k', before n' k' n k -> ~ uses (mkMachine (d :: l) [] true true) p n' k')) \/
    (search p (S i) l = Ans NoContext /\ forall n k, ~ uses (mkMachine (d :: l) [] true true) p n k)).
  { intros d l0 i Z [(n & k & x & A & B & U & M)|(A & B)].
    - left. exists (S n), k, x. replace (i + S n) with (S i + n) by lia. split; [exact A|]. split; [exact B|]. split; [now apply CONS|].
      intros [|n'] k' H; [apply Z|]. rewrite CONS. apply M. unfold before in *. destruct H as [H|(H & H')]; [left; lia|right; split; [lia|auto]].
    - right. split; auto. intros [|n] k; [apply Z|]. rewrite CONS. apply B. }
  induction l as [|d l IH]; intros C i; cbn [search].
  - right. split; auto. intros n k (x & H & _). destruct n; discriminate.
  - destruct (C d (or_introl eq_refl)) as (CU & CS). specialize (IH (fun x I => C x (or_intror I)) (S i)).
    destruct (mig d) as [sl|] eqn:M.
    + destruct (search_slices_ok p (fun j => OnGpu i (g_uuid d) (Some j)) sl (fun u I => CS sl u eq_refl I) 0) as [(k & u & A & B & D & F)|(A & B)].
      * rewrite A. left. exists 0, (Some k), d. rewrite Nat.add_0_r. split; [reflexivity|]. split; [reflexivity|]. split.
        -- exists d. split; [reflexivity|]. rewrite M. now exists u.
        -- intros n' k' [H|(-> & H)]; [lia|]. destruct k' as [k'|]; [|destruct H]. intros (x & X & Y). cbn in X. inversion X; subst x.
           rewrite M in Y. destruct Y as (u' & Y1 & Y2). now apply (F k' u').
      * rewrite A. apply STEP; auto. intros k (x & X & Y). cbn in X. inversion X; subst x. rewrite M in Y.
        destruct k as [k|]; [|destruct Y]. destruct Y as (u & Y1 & Y2). now apply (B k u).
    + rewrite matches_ok by auto. destruct (existsb (Nat.eqb p) (at_second (g_use d))) eqn:E.
      * apply existsb_pid in E. left. exists 0, None, d. rewrite Nat.add_0_r. split; [reflexivity|]. split; [reflexivity|]. split.
        -- exists d. split; [reflexivity|]. now rewrite M.
        -- intros n' k' [H|(-> & H)]; [lia|]. destruct k'; destruct H.
      * apply existsb_pid_f in E. apply STEP; auto. intros k (x & X & Y). cbn in X. inversion X; subst x. rewrite M in Y. destruct k; auto.
Qed.

(** The process is told that it has a context exactly if it uses a GPU or a slice of one; the
    first of them is described. *)
Theorem C73_context : forall m p e os, drivers m -> cuda_visible m e <> [] -> quiet os -> calm m p ->
  let r := snd (get_cuda_context m p (run m (fresh_process e) os)) in
  (exists i k d, r = Ans (OnGpu i (g_uuid d) k) /\ nth_error (gpus m) i = Some d /\ uses m p i k /\
                 forall i' k', before i' k' i k -> ~ uses m p i' k') \/
  (r = Ans NoContext /\ forall i k, ~ uses m p i k).
Proof.
  intros m p e os D N Q C r.
  assert (r = snd (get_cuda_context m p (fresh_process e))) as ->. { apply (C73_answers_do_not_change m e os Q). }
  unfold get_cuda_context. destruct (ready_fresh m e D N) as (-> & _). cbn [snd].
  exact (search_ok p (gpus m) C 0).
Qed.

(** A process that cannot use CUDA (no driver, or no visible device) is told it has no context. *)
Theorem C73_no_device_no_context : forall m p e os, quiet os ->
  has_nvml m = false \/ has_cuda m = false \/ cuda_visible m e = [] ->
  let s := run m (fresh_process e) os in
  snd (get_cuda_context m p s) = Ans NoContext /\ forall i, snd (get_device_info m s i) = NoLibrary.
Proof.
  intros m p e os Q H s. destruct (C73_answers_do_not_change m e os Q) as (_ & I & C). subst s.
  assert (R : ready (init m (fresh_process e)) = false).
  { unfold init. cbn. destruct H as [-> |[-> | ->]]; auto; rewrite ?andb_false_r; auto. }
  split.
  - rewrite C. unfold get_cuda_context. now rewrite R.
  - intros i. rewrite I. unfold get_device_info. cbn [fresh_process device_infos cached].
    change (mkSt e None false None []) with (fresh_process e). now rewrite R.
Qed.

(** If a query finds more than twice as many processes plus 5 as it made room for, it fails. *)
Theorem C73_crowded_device_refuted : forall m p e os d r, drivers m -> cuda_visible m e <> [] -> quiet os ->
  gpus m = d :: r -> mig d = None -> at_first (g_use d) <> [] ->
  2 * List.length (at_first (g_use d)) + 5 < List.length (at_second (g_use d)) ->
  snd (get_cuda_context m p (run m (fresh_process e) os)) = NVError.
Proof.
  intros m p e os d r D N Q G M F L. destruct (C73_answers_do_not_change m e os Q) as (_ & _ & ->).
  unfold get_cuda_context. destruct (ready_fresh m e D N) as (-> & _). rewrite G. cbn [snd search]. rewrite M.
  unfold running_process_matches, get_compute_running_processes. destruct (at_first (g_use d)) as [|x l]; [congruence|].
  replace (_ <=? _) with false; auto. symmetry. apply Nat.leb_gt. exact L.
Qed.

(** ** The warning of the UCX transport *)

(** Full claim: with the context on GPU [i], a warning is logged exactly if [i] is not the first
    visible device. *)
Definition C73_warning_claim : Prop := forall m e i d k first, sound_machine m -> drivers m ->
  (e = None \/ exists v es gs, e = Some v /\ lists m v es gs) ->
  hd_error (cuda_visible m e) = Some first -> nth_error (gpus m) i = Some d ->
  warns m (fresh_process e) (OnGpu i (g_uuid d) k) = Ans (negb (i =? first)).

(** It holds when CUDA and NVML number the GPUs alike. *)
Theorem C73_warning_partial : forall m e i d k first, sound_machine m -> drivers m ->
  order m = seq 0 (List.length (gpus m)) ->
  (e = None \/ exists v es gs, e = Some v /\ lists m v es gs) ->
  hd_error (cuda_visible m e) = Some first -> nth_error (gpus m) i = Some d ->
  warns m (fresh_process e) (OnGpu i (g_uuid d) k) = Ans (negb (i =? first)).
Proof.
  intros m e i d k first SM (HN & HC) O L H I.
  assert (SAME : forall x, nth_error (gpus m) first = Some x -> negb (text_eqb (g_uuid d) (g_uuid x)) = negb (i =? first)).
  { intros x X. destruct (Nat.eqb_spec i first) as [->|NE].
    - rewrite I in X. inversion X; subst. now rewrite text_eqb_refl.
    - destruct (text_eqb_spec (g_uuid d) (g_uuid x)) as [E|]; auto. exfalso. apply NE.
      destruct SM as (_ & ND & _). rewrite NoDup_nth_error in ND. apply ND; [rewrite map_length; apply nth_error_Some; congruence|].
      now rewrite (map_nth_error _ _ _ I), (map_nth_error _ _ _ X), E. }
  destruct (C73_index_and_uuid m SM HN) as (NUM & UU & _).
  assert (SEQ : forall n g, nth_error (order m) n = Some g -> g = n /\ n < List.length (gpus m)).
  { intros n g. rewrite O. intros Q. assert (n < List.length (gpus m)) as Ln by (rewrite <- (seq_length (List.length (gpus m)) 0); apply nth_error_Some; congruence).
    split; auto. apply (nth_error_nth _ _ 0) in Q. now rewrite seq_nth in Q. }
  unfold warns. cbn [fresh_process env]. destruct L as [->|(v & es & gs & -> & L)].
  - cbn [cuda_visible] in H. assert (Z0 : nth_error (order m) 0 = Some first) by (destruct (order m); auto).
    apply SEQ in Z0. destruct Z0 as (-> & L0). destruct (nth_error (gpus m) 0) as [x|] eqn:X; [|apply nth_error_None in X; lia].
    change (hd [] (split (lit ",") (lit "0"))) with (lit "0").
    rewrite (NUM (lit "0") 0 x); auto; [now rewrite (SAME x)|]. exists [0]. repeat split; try discriminate. constructor; auto with arith.
  - rewrite (lists_split _ _ _ _ SM L). unfold cuda_visible in H. rewrite (lists_split _ _ _ _ SM L) in H. destruct L as (NE & _ & F).
    destruct F as [|e g es gs Ne F]; [congruence|]. cbn [hd shown] in *. rewrite (named_ok m e g SM Ne) in H. cbn in H. inversion H; subst first.
    destruct Ne as [(n & N & P)|(x & X & ->)].
    + apply SEQ in P. destruct P as (-> & Ln). destruct (nth_error (gpus m) n) as [x|] eqn:X; [|apply nth_error_None in X; lia].
      rewrite (NUM e n x N X). now rewrite (SAME x).
    + rewrite (UU g x X). now rewrite (SAME x).
Qed.

(** ** Concrete machines *)
Module Demo.
Definition idle : usage := mkUse [] [].
Definition two (o : list nat) : machine :=
  mkMachine [mkGpu (lit "GPU-a") None (mkUse [7] [7]); mkGpu (lit "GPU-b") (Some [None; Some idle; Some (mkUse [9] [9; 5])]) idle] o true true.
Lemma two_sound o : o = [0; 1] \/ o = [1; 0] -> sound_machine (two o).
Proof.
  intros H. assert (U : forall c, c = "a"%char \/ c = "b"%char -> uuid_form (lit "GPU-" ++ [c])).
  { intros c [-> | ->]; (split; [now eexists|split; [repeat constructor|]]); cbn; intros K; repeat destruct K as [K|K]; try discriminate; auto. }
  split; [|split; [|split]].
  - constructor; [apply (U "a"%char); auto|constructor; [apply (U "b"%char); auto|constructor]].
  - repeat constructor; cbn; intros K; repeat destruct K as [K|K]; try discriminate; auto.
  - destruct H as [-> | ->]; repeat constructor; cbn; intros K; repeat destruct K as [K|K]; try discriminate; auto.
  - intros g. destruct H as [-> | ->]; cbn; lia.
Qed.
Lemma num0 : numeral (lit "0") 0. Proof. exists [0]. repeat split; try discriminate. constructor; auto with arith. Qed.
Lemma num1 : numeral (lit "1") 1. Proof. exists [1]. repeat split; try discriminate. constructor; auto with arith. Qed.
Lemma num12 : numeral (lit "012") 12. Proof. exists [0; 1; 2]. repeat split; try discriminate. repeat constructor; auto with arith. Qed.
Example lists_10 : lists (two [1; 0]) (lit "1,0") [lit "1"; lit "0"] [0; 1].
Proof. split; [discriminate|]. split; [reflexivity|]. constructor; [left; exists 1; auto using num1|constructor; [left; exists 0; auto using num0|constructor]]. Qed.
Example lists_b : lists (two [0; 1]) (lit "GPU-b,0") [lit "GPU-b"; lit "0"] [1; 0].
Proof. split; [discriminate|]. split; [reflexivity|]. constructor; [right; eexists; split; reflexivity|constructor; [left; exists 0; auto using num0|constructor]]. Qed.
Example quiet_demo : quiet [Count; Info 1; Context 3; Info 0; Count].
Proof. intros v H. repeat destruct H as [H|H]; try discriminate; auto. Qed.
Example count_two : snd (get_device_count (two [1; 0]) (run (two [1; 0]) (fresh_process (Some (lit "1,0"))) [Count; Info 1; Context 3])) = Some 2.
Proof. reflexivity. Qed.
Example info_two : snd (get_device_info (two [1; 0]) (run (two [1; 0]) (fresh_process (Some (lit "1,0"))) [Count; Info 1; Context 3]) 0) = Ans (mkInfo 1 (lit "GPU-a")).
Proof. reflexivity. Qed.
Example calm_two : calm (two [0; 1]) 5.
Proof.
  intros d [<-|[<-|[]]]; cbn; (split; [split; cbn; [lia|intuition discriminate]|]); [discriminate|].
  intros sl u E I. inversion E; subst. cbn in I. destruct I as [I|[I|[I|[]]]]; inversion I; subst; split; cbn; try lia; intuition discriminate.
Qed.
Example context_two : snd (get_cuda_context (two [0; 1]) 5 (fresh_process None)) = Ans (OnGpu 1 (lit "GPU-b") (Some 2)).
Proof. reflexivity. Qed.
End Demo.

(** The full claims are false. *)
(** CUDA stops at the first entry that names no GPU, the
    count does not: with two GPUs and "0,7" or "0,-1,1" it is 2 and 3, where one device is visible. *)
Theorem C73_count_refuted : ~ C73_count_claim.
Proof.
  intros H. specialize (H (Demo.two [0; 1]) (Some (lit "0,-1,1")) [] (Demo.two_sound _ (or_introl eq_refl)) (conj eq_refl eq_refl) (fun v I => I)).
  discriminate H.
Qed.
Theorem C73_info_refuted : ~ C73_info_claim.
Proof.
  intros H. destruct (H (Demo.two [0; 1]) (Some (lit "GPU-b,0")) [] 1 0 (mkGpu (lit "GPU-a") None (mkUse [7] [7])) (Demo.two_sound _ (or_introl eq_refl)) (conj eq_refl eq_refl) (fun v I => I) eq_refl eq_refl) as (x & X & _).
  discriminate X.
Qed.
(** A process that changes the variable after the driver was initialised is told the index of
    another device: here GPU-a (number 0) is reported as number 1. *)
Theorem C73_changed_variable_refuted :
  let m := Demo.two [0; 1] in
  let s := run m (fresh_process (Some (lit "0,1"))) [Context 3; SetVisible (Some (lit "1,0"))] in
  snd (get_device_info m s 0) = Ans (mkInfo 1 (lit "GPU-a")) /\ nth_error (order m) 0 = Some 0.
Proof. split; reflexivity. Qed.
(** With CUDA's default order ("fastest first") a context on the right device is warned about. *)
Theorem C73_warning_refuted : ~ C73_warning_claim.
Proof.
  intros H. specialize (H (Demo.two [1; 0]) None 1 (mkGpu (lit "GPU-b") (Some [None; Some Demo.idle; Some (mkUse [9] [9; 5])]) Demo.idle) None 1
    (Demo.two_sound _ (or_intror eq_refl)) (conj eq_refl eq_refl) (or_introl eq_refl) eq_refl eq_refl). discriminate H.
Qed.

Print Assumptions C73_answers_do_not_change.
Print Assumptions C73_count_partial.
Print Assumptions C73_count_unset_is_visible.
Print Assumptions C73_count_kept.
Print Assumptions C73_count_refuted.
Print Assumptions C73_info_partial.
Print Assumptions C73_info_uuid_refuted.
Print Assumptions C73_info_refuted.
Print Assumptions C73_changed_variable_refuted.
Print Assumptions C73_index_and_uuid.
Print Assumptions C73_context.
Print Assumptions C73_no_device_no_context.
Print Assumptions C73_crowded_device_refuted.
Print Assumptions C73_warning_partial.
Print Assumptions C73_warning_refuted.
