(** * C43 (create_actor_pool validates and lays out its processes) and
      C51 (internal addresses on one machine)

    How to read.  [layout has_unix pid idx g] is the configuration create_actor_pool hands to the
    main pool when called with the arguments [g] in the process [pid], whose counter of process
    indexes stands at [idx]; [None]: the arguments are refused (ValueError).  The entries are in
    order: the main pool first, then the sub pools. *)
From Coq Require Import String Ascii DecimalString DecimalZ DecimalPos.
From Coq Require Import List ZArith Lia Bool.
From Verif Require Import PyStr GroupModel GroupProps LayoutModel.
Import ListNotations.
Open Scope list_scope.
Open Scope Z_scope.

(** ** Specification *)
(** An optional list argument counts as not given when it is None or empty. *)
Definition fits {A} (l : option (list A)) (n : nat) : Prop :=
  match l with Some (x :: t) => length (x :: t) = n | _ => True end.
Definition pick {A} (l : option (list A)) (k : nat) : option A :=
  match l with Some m => nth_error m k | None => None end.
(** The address names a host, with or without a port. *)
Inductive names : text -> text -> option Z -> Prop :=
| names_host : forall host, ~ In ":"%char host -> names host host None
| names_port : forall host port, 0 <= port -> names (host ++ lit ":" ++ str_int port) host (Some port).
Definition lengths_fit (g : args) (port : option Z) : Prop :=
  fits (a_labels g) (a_n g + 1) /\ fits (a_envs g) (a_n g) /\ fits (a_schemes g) (a_n g + 1) /\
  fits (a_internal g) (a_n g + 1) /\
  fits (a_ports g) (match port with Some _ => a_n g | None => a_n g + 1 end).
(** The port asked for at position [k]: 0 lets the system choose. *)
Definition port_at (g : args) (port : option Z) (k : nat) : Z :=
  match port with
  | Some p => match k with O => p | S j => match pick (a_ports g) j with Some q => q | None => 0 end end
  | None => match pick (a_ports g) k with Some q => q | None => 0 end
  end.
Definition scheme_at (g : args) (k : nat) : text :=
  match pick (a_schemes g) k with
  | Some (Some s) => match s with [] => [] | _ => s ++ lit "://" end
  | _ => []
  end.
Definition external_at (g : args) (host : text) (port : option Z) (k : nat) : text :=
  scheme_at g k ++ host ++ lit ":" ++ str_int (port_at g port k).
Definition label_at (g : args) (k : nat) : option text := match pick (a_labels g) k with Some l => l | None => None end.
Definition env_at (g : args) (k : nat) : option nat := match k with O => None | S j => pick (a_envs g) j end.
Definition internal_enabled (g : args) (k : nat) : Prop := pick (a_internal g) k <> Some false.

(** ** Proofs *)
Lemma acc_int d : forall p, int_go (Zpos p) (lit (NilEmpty.string_of_uint d)) = Some (Zpos (Pos.of_uint_acc d p)).
Proof.
  unfold lit. induction d; intros p; [reflexivity|..]; cbn [NilEmpty.string_of_uint list_ascii_of_string int_go Pos.of_uint_acc];
  match goal with |- context [digit ?c] => let v := eval vm_compute in (digit c) in change (digit c) with v end; cbv iota beta;
  match goal with |- int_go ?x _ = Some (Zpos (Pos.of_uint_acc _ ?q)) => replace x with (Zpos q) by lia end; apply IHd.
Qed.
Lemma uint_int d : int_go 0 (lit (NilEmpty.string_of_uint d)) = Some (Z.of_N (Pos.of_uint d)).
Proof.
  unfold lit. induction d; [reflexivity|..]; cbn [NilEmpty.string_of_uint list_ascii_of_string int_go Pos.of_uint];
  match goal with |- context [digit ?c] => let v := eval vm_compute in (digit c) in change (digit c) with v end; cbv iota beta.
  - exact IHd.
  - apply (acc_int d 1).
  - apply (acc_int d 2).
  - apply (acc_int d 3).
  - apply (acc_int d 4).
  - apply (acc_int d 5).
  - apply (acc_int d 6).
  - apply (acc_int d 7).
  - apply (acc_int d 8).
  - apply (acc_int d 9).
Qed.
Lemma int_str z : 0 <= z -> py_int (str_int z) = Some z.
Proof.
  intros P. unfold str_int. pose proof (DecimalZ.of_to z) as E. pose proof (to_int_pos z) as NP.
  destruct (Z.to_int z) as [d|d] eqn:D; [|destruct z; [discriminate|discriminate|lia]].
  cbn [NilZero.string_of_int]. rewrite <- E. cbn [Z.of_int].
  assert (X : NilZero.string_of_uint d = NilEmpty.string_of_uint d) by (destruct d; [congruence|reflexivity..]).
  rewrite X. unfold Z.of_uint. rewrite <- uint_int. unfold py_int.
  destruct d; [congruence|reflexivity..].
Qed.
Lemma str_no_colon z : 0 <= z -> ~ In ":"%char (str_int z).
Proof.
  intros P. pose proof (int_str z P) as E.
  assert (G : forall s acc v, int_go acc s = Some v -> ~ In ":"%char s).
  { induction s as [|c s IH]; intros acc v; cbn [int_go]; [intros _ []|].
    destruct (digit c) as [d|] eqn:D; [|discriminate]. intros X [C|I]; [subst; vm_compute in D; discriminate|exact (IH _ _ X I)]. }
  unfold py_int in E. destruct (str_int z); [discriminate|]. eapply G, E.
Qed.
Lemma rsplit_none c s : ~ In c s -> rsplit_go c s = None.
Proof.
  induction s as [|d s IH]; cbn [rsplit_go]; auto. intros N. rewrite IH by (intros C; apply N; now right).
  destruct (Ascii.eqb_spec c d) as [->|]; auto. exfalso. apply N. now left.
Qed.
Lemma rsplit_last c a b : ~ In c b -> rsplit_go c (a ++ c :: b) = Some (a, b).
Proof.
  intros N. induction a as [|d a IH]; cbn [rsplit_go app].
  - rewrite rsplit_none by auto. now rewrite Ascii.eqb_refl.
  - now rewrite IH.
Qed.

Lemma wrong_len_fits {A} (l : option (list A)) n : wrong_len l n = false <-> fits l n.
Proof.
  unfold wrong_len, fits. destruct l as [[|x t]|]; [tauto| |tauto].
  rewrite negb_false_iff, Nat.eqb_eq. tauto.
Qed.
Lemma wrong_len_true {A} (l : option (list A)) n : ~ fits l n -> wrong_len l n = true.
Proof. intros N. destruct (wrong_len l n) eqn:E; auto. apply wrong_len_fits in E. contradiction. Qed.
Lemma at_pos_pick {A} (l : option (list A)) k : at_pos l k = pick l k.
Proof. destruct l as [[|x t]|]; cbn; auto. now destruct k. Qed.

Lemma map_nth_error_seq {A} (f : nat -> A) n k : (k < n)%nat -> nth_error (map f (seq 0 n)) k = Some (f k).
Proof.
  intros L. rewrite nth_error_map. rewrite nth_error_nth' with (d := 0%nat) by (rewrite seq_length; lia).
  rewrite seq_nth by lia. reflexivity.
Qed.
Lemma nth_error_same {A} (l m : list A) : (forall k, nth_error l k = nth_error m k) -> l = m.
Proof.
  revert m. induction l as [|x l IH]; intros [|y m] E.
  - reflexivity.
  - specialize (E 0%nat). discriminate.
  - specialize (E 0%nat). discriminate.
  - pose proof (E 0%nat) as E0. cbn in E0. inversion E0; subst. f_equal. apply IH. intros k. exact (E (S k)).
Qed.
Lemma list_is_map {A} (l : list A) (f : nat -> A) n : length l = n -> (forall k, (k < n)%nat -> nth_error l k = Some (f k)) ->
  l = map f (seq 0 n).
Proof.
  intros L E. apply nth_error_same. intros k. destruct (Nat.lt_ge_cases k n) as [H|H].
  - rewrite map_nth_error_seq by lia. auto.
  - transitivity (@None A); [apply nth_error_None; lia|symmetry; apply nth_error_None; rewrite map_length, seq_length; lia].
Qed.
Lemma nth_error_combine {A B} (l : list A) (m : list B) k x y : nth_error l k = Some x -> nth_error m k = Some y -> nth_error (combine l m) k = Some (x, y).
Proof.
  revert m k. induction l as [|a l IH]; intros [|b m] [|k]; cbn; try discriminate; [congruence|]. apply IH.
Qed.
Lemma nth_error_rep {A} (x : A) n k : (k < n)%nat -> nth_error (repeat x n) k = Some x.
Proof. revert k. induction n as [|n IH]; intros [|k] L; cbn; try lia; auto. apply IH. lia. Qed.

Lemma names_inv a host port : names a host port ->
  (~ In ":"%char host /\ a = host /\ port = None) \/
  (exists p, 0 <= p /\ a = host ++ lit ":" ++ str_int p /\ port = Some p).
Proof. intros []; [left; auto|right; eauto]. Qed.

(** The ports, position by position. *)
Definition ports_list (g : args) (port : option Z) : list Z := map (port_at g port) (seq 0 (a_n g + 1)).
Lemma prefix_scheme g k s : pick (a_schemes g) k = Some s -> prefix s = scheme_at g k.
Proof. unfold scheme_at. intros ->. destruct s as [[|c t]|]; reflexivity. Qed.
Lemma external_ok g host port : names (a_address g) host port -> lengths_fit g port ->
  get_external_addresses (a_address g) (a_n g) (a_ports g) (a_schemes g) = Some (map (external_at g host port) (seq 0 (a_n g + 1))).
Proof.
  intros Nm (_ & _ & Fs & _ & Fp).
  assert (Finish : forall ps, ps = ports_list g port ->
    Some (map (fun x => snd x ++ host ++ lit ":" ++ str_int (fst x))
      (combine ps (match a_schemes g with Some (s :: ss) => map prefix (s :: ss) | _ => repeat [] (length ps) end)))
    = Some (map (external_at g host port) (seq 0 (a_n g + 1)))).
  { intros ps ->. f_equal.
    assert (Lp : length (ports_list g port) = (a_n g + 1)%nat) by (unfold ports_list; now rewrite map_length, seq_length).
    set (pre := match a_schemes g with Some (s :: ss) => map prefix (s :: ss) | _ => repeat [] (length (ports_list g port)) end).
    assert (Pre : pre = map (scheme_at g) (seq 0 (a_n g + 1))).
    { apply list_is_map.
      - unfold pre. destruct (a_schemes g) as [[|s ss]|] eqn:E; rewrite ?repeat_length, ?map_length; auto.
      - intros k Hk. unfold pre. destruct (a_schemes g) as [[|s ss]|] eqn:E.
        + unfold scheme_at. rewrite E. cbn [pick]. rewrite nth_error_rep by lia. now destruct k.
        + rewrite nth_error_map. cbn [fits] in Fs.
          destruct (nth_error (s :: ss) k) as [x|] eqn:N.
          * cbn [option_map]. f_equal. apply prefix_scheme. rewrite E. exact N.
          * apply nth_error_None in N. lia.
        + unfold scheme_at. rewrite E. cbn [pick]. now rewrite nth_error_rep by lia. }
    rewrite Pre. apply list_is_map.
    - rewrite map_length, combine_length, Lp, map_length, seq_length. lia.
    - intros k Hk. rewrite nth_error_map. unfold ports_list.
      rewrite (nth_error_combine _ _ k (port_at g port k) (scheme_at g k)); [reflexivity|now apply map_nth_error_seq..]. }
  unfold get_external_addresses. destruct (names_inv _ _ _ Nm) as [(NI & E1 & E2)|(p & Pp & E1 & E2)]; rewrite E1.
  - subst port. rewrite rsplit_none by exact NI.
    destruct (a_ports g) as [[|p ps]|] eqn:E.
    + apply Finish. unfold ports_list. apply list_is_map; [apply repeat_length|]. intros k Hk. rewrite nth_error_rep by lia.
      unfold port_at. rewrite E. cbn [pick]. now destruct k.
    + cbn [fits] in Fp. rewrite Fp, Nat.eqb_refl. apply Finish. unfold ports_list. apply list_is_map; [exact Fp|].
      intros k Hk. unfold port_at. rewrite E. cbn [pick]. destruct (nth_error (p :: ps) k) eqn:N; [reflexivity|]. apply nth_error_None in N. lia.
    + apply Finish. unfold ports_list. apply list_is_map; [apply repeat_length|]. intros k Hk. rewrite nth_error_rep by lia.
      unfold port_at. now rewrite E.
  - subst port. change (lit ":" ++ str_int p) with (":"%char :: str_int p). rewrite rsplit_last by (now apply str_no_colon).
    rewrite int_str by auto. destruct (a_ports g) as [[|q ps]|] eqn:E.
    + apply Finish. unfold ports_list. apply list_is_map; [cbn [length]; rewrite repeat_length; lia|]. intros [|k] Hk; [reflexivity|].
      cbn [nth_error]. rewrite nth_error_rep by lia. unfold port_at. rewrite E. cbn [pick]. now destruct k.
    + cbn [fits] in Fp. rewrite Fp, Nat.eqb_refl. apply Finish. unfold ports_list. apply list_is_map; [cbn [length] in *; lia|].
      intros [|k] Hk; [reflexivity|]. change (nth_error (p :: q :: ps) (S k)) with (nth_error (q :: ps) k).
      unfold port_at. rewrite E. cbn [pick]. destruct (nth_error (q :: ps) k) eqn:N; [reflexivity|]. apply nth_error_None in N. lia.
    + apply Finish. unfold ports_list. apply list_is_map; [cbn [length]; rewrite repeat_length; lia|]. intros [|k] Hk; [reflexivity|].
      cbn [nth_error]. rewrite nth_error_rep by lia. unfold port_at. now rewrite E.
Qed.

(** Process indexes. *)
Lemma process_index_pow pid i : process_index pid i = pid * 2 ^ (16 + Z.of_nat i).
Proof. unfold process_index. apply Z.shiftl_mul_pow2. lia. Qed.
Lemma process_index_inj pid i j : 0 < pid -> process_index pid i = process_index pid j -> i = j.
Proof.
  intros P E. rewrite !process_index_pow in E. apply Z.mul_reg_l in E; [|lia].
  apply Z.pow_inj_r in E; lia.
Qed.
Lemma add_append pools i c : ~ In i (map fst pools) -> add_pool_conf pools i c = pools ++ [(i, c)].
Proof.
  induction pools as [|(j, d) pools IH]; cbn [add_pool_conf map fst app]; auto. intros N.
  destruct (Z.eqb_spec i j) as [->|]; [exfalso; apply N; now left|]. f_equal. apply IH. intros C. apply N. now right.
Qed.
Lemma fold_add (f : nat -> Z) (c : nat -> conf) : (forall i j, f i = f j -> i = j) -> forall n s acc,
  (forall k, (s <= k)%nat -> ~ In (f k) (map fst acc)) ->
  fold_left (fun pools k => add_pool_conf pools (f k) (c k)) (seq s n) acc = acc ++ map (fun k => (f k, c k)) (seq s n).
Proof.
  intros Inj n. induction n as [|n IH]; intros s acc N; cbn [seq fold_left map]; [now rewrite app_nil_r|].
  rewrite add_append by (apply N; lia). rewrite IH.
  - now rewrite <- app_assoc.
  - intros k Hk C. rewrite map_app in C. apply in_app_iff in C as [C|[C|[]]]; [eapply N; [|exact C]; lia|].
    cbn [fst] in C. apply Inj in C. lia.
Qed.

Lemma layout_ok has_unix pid idx g host port :
  0 < pid -> names (a_address g) host port -> lengths_fit g port -> a_recover g <> RecOther ->
  layout has_unix pid idx g = Some (map (fun k => (process_index pid (idx + k),
     {| c_label := label_at g k;
        c_internal := if match pick (a_internal g) k with Some b => b | None => true end
                      then Some (gen_internal_address has_unix (process_index pid (idx + k)) (external_at g host port k)) else None;
        c_external := external_at g host port k;
        c_env := env_at g k |})) (seq 0 (a_n g + 1))).
Proof.
  intros P Nm F R. pose proof (external_ok g host port Nm F) as X. destruct F as (F1 & F2 & F3 & F4 & F5).
  unfold layout. apply wrong_len_fits in F1, F2, F3. rewrite F1, F2, F3.
  pose proof F4 as F4'. apply wrong_len_fits in F4. rewrite F4. rewrite X.
  assert (Q : forall A (x y : A), match a_recover g with RecOther => x | _ => y end = y) by (intros; destruct (a_recover g); congruence).
  rewrite Q. f_equal.
  erewrite (fold_add (fun k => process_index pid (idx + k))).
  - cbn [app]. apply map_ext_in. intros k Ik. apply in_seq in Ik.
    assert (Ne : nth k (map (external_at g host port) (seq 0 (a_n g + 1))) [] = external_at g host port k).
    { apply nth_error_nth. apply map_nth_error_seq. lia. }
    rewrite !Ne. f_equal. f_equal.
    + rewrite at_pos_pick. reflexivity.
    + replace (nth k (match a_internal g with Some (b :: bs) => b :: bs | _ => repeat true (a_n g + 1) end) false)
        with (match pick (a_internal g) k with Some b => b | None => true end); [reflexivity|].
      destruct (a_internal g) as [[|b bs]|] eqn:E; cbn [pick].
      * symmetry. destruct k; cbn [nth_error]; apply nth_error_nth, nth_error_rep; lia.
      * cbn [fits] in F4'. destruct (nth_error (b :: bs) k) eqn:N; [symmetry; now apply nth_error_nth|].
        apply nth_error_None in N. lia.
      * symmetry. apply nth_error_nth, nth_error_rep. lia.
    + destruct k; [reflexivity|]. cbn [env_at]. apply at_pos_pick.
  - intros i j E. apply process_index_inj in E; lia.
  - intros k _ [].
Qed.

(** ** Theorems: C43 *)

(** A list of the wrong length, or an unknown recovery mode, is refused. *)
Theorem C43_wrong_arguments_refused : forall has_unix pid idx g host port,
  names (a_address g) host port ->
  ~ (lengths_fit g port /\ a_recover g <> RecOther) ->
  layout has_unix pid idx g = None.
Proof.
  intros has_unix pid idx g host port Nm B. unfold layout.
  destruct (wrong_len (a_labels g) (a_n g + 1)) eqn:F1; [reflexivity|].
  destruct (wrong_len (a_envs g) (a_n g)) eqn:F2; [reflexivity|].
  destruct (wrong_len (a_schemes g) (a_n g + 1)) eqn:F3; [reflexivity|].
  destruct (wrong_len (a_internal g) (a_n g + 1)) eqn:F4; [reflexivity|].
  apply wrong_len_fits in F1, F2, F3, F4.
  assert (D : a_recover g = RecOther \/ a_recover g <> RecOther) by (destruct (a_recover g); [right; discriminate..|now left]).
  destruct D as [->|R]; [reflexivity|].
  assert (Fp : ~ fits (a_ports g) (match port with Some _ => a_n g | None => a_n g + 1 end)).
  { intros Fp. apply B. split; [|exact R]. repeat split; auto. }
  assert (G : get_external_addresses (a_address g) (a_n g) (a_ports g) (a_schemes g) = None).
  { unfold get_external_addresses. destruct (names_inv _ _ _ Nm) as [(NI & E1 & E2)|(p & Pp & E1 & E2)]; rewrite E1.
    - subst port. rewrite rsplit_none by exact NI.
      destruct (a_ports g) as [[|p ps]|]; cbn [fits] in Fp; try tauto.
      destruct (Nat.eqb_spec (length (p :: ps)) (a_n g + 1)); [contradiction|reflexivity].
    - subst port. change (lit ":" ++ str_int p) with (":"%char :: str_int p). rewrite rsplit_last by (now apply str_no_colon).
      rewrite int_str by auto. destruct (a_ports g) as [[|q ps]|]; cbn [fits] in Fp; try tauto.
      destruct (Nat.eqb_spec (length (q :: ps)) (a_n g)); [contradiction|reflexivity]. }
  rewrite G. now destruct (a_recover g).
Qed.

(** Otherwise there are exactly [n_process + 1] entries, in order; the k-th has the label,
    environment and external address (scheme, host and port) asked for at position k, and an
    internal address iff that is enabled for it; and the process indexes are all different. *)
Theorem C43_layout_as_asked : forall has_unix pid idx g host port,
  0 < pid -> names (a_address g) host port -> lengths_fit g port -> a_recover g <> RecOther ->
  exists pools, layout has_unix pid idx g = Some pools /\
    length pools = (a_n g + 1)%nat /\ NoDup (map fst pools) /\
    forall k, (k <= a_n g)%nat -> exists i c, nth_error pools k = Some (i, c) /\
      c_label c = label_at g k /\ c_env c = env_at g k /\ c_external c = external_at g host port k /\
      (c_internal c <> None <-> internal_enabled g k).
Proof.
  intros has_unix pid idx g host port P Nm F R. eexists. split; [apply layout_ok; eauto|]. split; [|split].
  - now rewrite map_length, seq_length.
  - rewrite map_map. cbn [fst].
    assert (G : forall l, NoDup l -> NoDup (map (fun k => process_index pid (idx + k)) l)).
    { induction l as [|x l IH]; intros N; cbn [map]; constructor; inversion N; subst; auto.
      intros C. apply in_map_iff in C as (y & E & I). apply process_index_inj in E; [|lia]. assert (x = y) by lia. subst. contradiction. }
    apply G, seq_NoDup.
  - intros k Hk. rewrite map_nth_error_seq by lia. do 2 eexists. split; [reflexivity|]. cbn [c_label c_env c_external c_internal].
    repeat split; auto; unfold internal_enabled.
    + destruct (pick (a_internal g) k) as [[|]|]; congruence.
    + destruct (pick (a_internal g) k) as [[|]|]; congruence.
Qed.

(** Within one configuration, no two pools have the same internal address. *)
Theorem C43_internal_addresses_distinct : forall pid idx g host port pools k l i c j d a,
  0 < pid -> names (a_address g) host port -> lengths_fit g port -> a_recover g <> RecOther ->
  layout true pid idx g = Some pools ->
  nth_error pools k = Some (i, c) -> nth_error pools l = Some (j, d) ->
  c_internal c = Some a -> c_internal d = Some a -> k = l.
Proof.
  intros pid idx g host port pools k l i c j d a P Nm F R L Nk Nl Ik Il.
  rewrite (layout_ok true pid idx g host port P Nm F R) in L. inversion L; subst pools. clear L.
  assert (Bk : forall m x, nth_error (map (fun k0 => (process_index pid (idx + k0),
     {| c_label := label_at g k0;
        c_internal := if match pick (a_internal g) k0 with Some b => b | None => true end
                      then Some (gen_internal_address true (process_index pid (idx + k0)) (external_at g host port k0)) else None;
        c_external := external_at g host port k0;
        c_env := env_at g k0 |})) (seq 0 (a_n g + 1))) m = Some x -> (m < a_n g + 1)%nat).
  { intros m x E. assert (nth_error (map (fun k0 => (process_index pid (idx + k0),
     {| c_label := label_at g k0;
        c_internal := if match pick (a_internal g) k0 with Some b => b | None => true end
                      then Some (gen_internal_address true (process_index pid (idx + k0)) (external_at g host port k0)) else None;
        c_external := external_at g host port k0;
        c_env := env_at g k0 |})) (seq 0 (a_n g + 1))) m <> None) as Q by congruence.
    apply nth_error_Some in Q. now rewrite map_length, seq_length in Q. }
  pose proof (Bk _ _ Nk). pose proof (Bk _ _ Nl). rewrite map_nth_error_seq in Nk, Nl by lia.
  inversion Nk; subst i c. inversion Nl; subst j d. clear Nk Nl Bk. cbn [c_internal] in *.
  destruct (match pick (a_internal g) k with Some b => b | None => true end); [|discriminate].
  destruct (match pick (a_internal g) l with Some b => b | None => true end); [|discriminate].
  cbn [gen_internal_address] in *. assert (E1 : lit "unixsocket:///" ++ str_int (process_index pid (idx + k)) = lit "unixsocket:///" ++ str_int (process_index pid (idx + l))).
  { pose proof (eq_trans Ik (eq_sym Il)) as E.
    exact (f_equal (fun o => match o with Some x => x | None => a end) E). }
  apply app_inv_head in E1. apply str_inj in E1. apply process_index_inj in E1; [lia|exact P].
Qed.

(** ** Theorems: C51 *)

(** The full claim: the internal addresses that main processes of one machine hand out are all
    different, for different processes or different positions of their counters. *)
Definition internal_address (pid : Z) (idx : nat) : text := gen_internal_address true (process_index pid idx) [].
Definition C51_claim : Prop := forall pid idx pid' idx',
  0 < pid -> 0 < pid' -> (pid, idx) <> (pid', idx') -> internal_address pid idx <> internal_address pid' idx'.

(** True within one process. *)
Theorem C51_one_process_partial : forall pid idx idx', 0 < pid ->
  internal_address pid idx = internal_address pid idx' -> idx = idx'.
Proof.
  intros pid i j P E. unfold internal_address, gen_internal_address in E.
  apply app_inv_head, str_inj, process_index_inj in E; auto.
Qed.

(** Exactly when two processes collide: one pid is the other times a power of two, and their
    counters differ by that power. *)
Theorem C51_collision_iff_partial : forall pid idx pid' idx', 0 < pid -> 0 < pid' -> (idx <= idx')%nat ->
  (internal_address pid idx = internal_address pid' idx' <-> pid = pid' * 2 ^ Z.of_nat (idx' - idx)).
Proof.
  intros pid i pid' j P P' L. unfold internal_address, gen_internal_address. split.
  - intros E. apply app_inv_head, str_inj in E. rewrite !process_index_pow in E.
    replace (16 + Z.of_nat j) with (Z.of_nat (j - i) + (16 + Z.of_nat i)) in E by lia.
    rewrite (Z.pow_add_r 2 (Z.of_nat (j - i))), Z.mul_assoc in E by lia. apply Z.mul_reg_r in E; auto.
    pose proof (Z.pow_pos_nonneg 2 (16 + Z.of_nat i)). lia.
  - intros E. do 2 f_equal. rewrite !process_index_pow. rewrite E, <- Z.mul_assoc, <- Z.pow_add_r by lia. do 2 f_equal. lia.
Qed.
(** In particular two processes with odd pids never collide. *)
Theorem C51_odd_pids_partial : forall pid idx pid' idx', 0 < pid -> 0 < pid' -> Z.odd pid = true -> Z.odd pid' = true ->
  internal_address pid idx = internal_address pid' idx' -> (pid, idx) = (pid', idx').
Proof.
  assert (G : forall p i q j, 0 < p -> 0 < q -> Z.odd p = true -> (i <= j)%nat -> internal_address p i = internal_address q j -> (p, i) = (q, j)).
  { intros p i q j P Q O L E. apply C51_collision_iff_partial in E; auto.
    destruct (Nat.eq_dec i j) as [->|N].
    - rewrite Nat.sub_diag in E. cbn [Z.of_nat] in E. rewrite Z.pow_0_r, Z.mul_1_r in E. congruence.
    - exfalso. rewrite E in O. replace (Z.of_nat (j - i)) with (1 + Z.of_nat (j - i - 1)) in O by lia.
      rewrite Z.pow_add_r, Z.odd_mul, Z.odd_mul in O by lia. cbn in O. rewrite andb_false_r in O. discriminate. }
  intros p i q j P Q O O' E. destruct (Nat.le_ge_cases i j) as [L|L]; [auto|].
  symmetry in E |- *. auto.
Qed.

(** Refuted in general: the process with pid 8484 gives its main pool the address that the
    process with pid 4242 gives its first sub pool. *)
Theorem C51_processes_collide_refuted : ~ C51_claim.
Proof.
  intros C. apply (C 8484 0%nat 4242 1%nat); [lia|lia|congruence|]. vm_compute. reflexivity.
Qed.

(** ** The hypotheses can be met *)
Module Demo.
  Definition g := {| a_address := lit "127.0.0.1:7000"; a_n := 2;
    a_labels := Some [Some (lit "main"); None; Some (lit "io")]; a_ports := Some [7001; 0];
    a_envs := Some [5%nat; 6%nat]; a_schemes := Some [None; Some (lit "ucx"); Some []];
    a_internal := Some [true; false; true]; a_recover := RecTrue |}.
  Example g_names : names (a_address g) (lit "127.0.0.1") (Some 7000).
  Proof. change (a_address g) with (lit "127.0.0.1" ++ lit ":" ++ str_int 7000). apply names_port. lia. Qed.
  Example g_fits : lengths_fit g (Some 7000). Proof. repeat split. Qed.
  Example g_layout : option_map (map (fun e => (fst e, c_external (snd e), c_env (snd e)))) (layout true 4242 0 g) =
    Some [(278003712, lit "127.0.0.1:7000", None); (556007424, lit "ucx://127.0.0.1:7001", Some 5%nat); (1112014848, lit "127.0.0.1:0", Some 6%nat)].
  Proof. vm_compute. reflexivity. Qed.
  Example refused_labels : layout true 4242 0 {| a_address := lit "h"; a_n := 2; a_labels := Some [None]; a_ports := None; a_envs := None; a_schemes := None; a_internal := None; a_recover := RecActor |} = None.
  Proof. reflexivity. Qed.
  (** Two whole configurations on one machine sharing an internal address. *)
  Example whole_pools_collide : exists p q, layout true 4242 0 g = Some p /\
    layout true 8484 0 {| a_address := lit "h"; a_n := 1; a_labels := None; a_ports := None; a_envs := None; a_schemes := None; a_internal := None; a_recover := RecFalse |} = Some q /\
    option_map (fun e => c_internal (snd e)) (nth_error p 2) = option_map (fun e => c_internal (snd e)) (nth_error q 1) /\
    option_map (fun e => c_internal (snd e)) (nth_error p 2) = Some (Some (lit "unixsocket:///1112014848")).
  Proof. do 2 eexists. split; [vm_compute; reflexivity|]. split; [vm_compute; reflexivity|]. split; vm_compute; reflexivity. Qed.
End Demo.

Print Assumptions C43_wrong_arguments_refused.
Print Assumptions C43_layout_as_asked.
Print Assumptions C43_internal_addresses_distinct.
Print Assumptions C51_one_process_partial.
Print Assumptions C51_collision_iff_partial.
Print Assumptions C51_odd_pids_partial.
Print Assumptions C51_processes_collide_refuted.
