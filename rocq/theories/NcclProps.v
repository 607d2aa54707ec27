(** * C60: NCCL groups can be created for any ranks, and exchange what they promise

    How to read.  [create_group world group id]: the members of [group] (world ranks, ascending) of a world of [world]
    processes exchange the unique id; the result is what every process of the world received (None: some process waits
    for ever).  [gather], [scatter], [alltoall]: the receive buffers, by rows, of the members afterwards. *)
From Coq Require Import List Arith Bool Lia ZArith Sorted.
From Verif Require Import NcclModel.
Import ListNotations.

(** ** Specification *)
Definition proper_group (world : nat) (group : list nat) : Prop :=
  StronglySorted lt group /\ Forall (fun r => r < world) group /\ 2 <= length group.
(** Every member but the first, which made it, has the id. *)
Definition id_received (group : list nat) (id : list Z) (bufs : list (list (list Z))) : Prop :=
  forall j, 0 < j < length group -> nth (nth j group 0) bufs [] = [id].
Definition claim_create : Prop := forall world group id, proper_group world group ->
  exists bufs, create_group world group id = Some bufs /\ id_received group id bufs.
(** [n] rows of [q] numbers *)
Definition matrix (n q : nat) (rows : list (list Z)) : Prop := length rows = n /\ Forall (fun r => length r = q) rows.

(** ** Proofs *)
Lemma leqb_eq a b : leqb a b = true <-> a = b.
Proof.
  revert b. induction a as [|x a IH]; intros [|y b]; cbn; split; try congruence.
  - intros E. apply andb_true_iff in E as [E1 E2]. apply Nat.eqb_eq in E1. apply IH in E2. congruence.
  - intros E. injection E as -> ->. rewrite Nat.eqb_refl. now apply IH.
Qed.
Lemma matched_iff progs : matched progs = true <->
  forall s d, s < length progs -> d < length progs ->
    map (@length Z) (sends_to d (program progs s)) = map snd (recvs_from s (program progs d)).
Proof.
  unfold matched. rewrite forallb_forall. split.
  - intros H s d S D. assert (I : In s (seq 0 (length progs))) by (apply in_seq; lia). specialize (H s I). rewrite forallb_forall in H.
    apply leqb_eq, H, in_seq. lia.
  - intros H s S. apply forallb_forall. intros d D. apply in_seq in S, D. apply leqb_eq, H; lia.
Qed.
Lemma program_map (f : nat -> list p2p) n r : r < n -> program (map f (seq 0 n)) r = f r.
Proof. intros H. unfold program. rewrite (nth_indep _ [] (f 0)) by (rewrite map_length, seq_length; lia). rewrite map_nth. now rewrite seq_nth. Qed.
Lemma nth_map_seq {A} (f : nat -> A) n r d : r < n -> nth r (map f (seq 0 n)) d = f r.
Proof. intros H. rewrite (nth_indep _ d (f 0)) by (rewrite map_length, seq_length; lia). rewrite map_nth. now rewrite seq_nth. Qed.
Lemma flat_map_unique {A} (g : nat -> list A) n d : d < n -> (forall p, p <> d -> g p = []) -> flat_map g (seq 0 n) = g d.
Proof.
  intros D H. assert (E : forall a m, flat_map g (seq a m) = if (a <=? d) && (d <? a + m) then g d else []).
  { intros a m. revert a. induction m as [|m IH]; intros a; cbn [seq flat_map].
    - replace ((a <=? d) && (d <? a + 0)) with false; [reflexivity|]. symmetry. apply andb_false_iff.
      destruct (Nat.leb_spec a d); [right; apply Nat.ltb_ge; lia|now left].
    - rewrite IH. destruct (Nat.eq_dec a d) as [->|N].
      + replace (S d <=? d) with false by (symmetry; apply Nat.leb_gt; lia). cbn [andb]. rewrite app_nil_r, Nat.leb_refl.
        now rewrite (proj2 (Nat.ltb_lt d (d + S m))) by lia.
      + rewrite (H a N). cbn [app]. replace ((S a <=? d) && (d <? S a + m)) with ((a <=? d) && (d <? a + S m)); [reflexivity|].
        apply eq_true_iff_eq. rewrite !andb_true_iff, !Nat.leb_le, !Nat.ltb_lt. lia. }
  rewrite E. cbn [Nat.leb andb Nat.add]. now rewrite (proj2 (Nat.ltb_lt d n) D).
Qed.
Lemma flat_map_none {A} (g : nat -> list A) l : (forall p, In p l -> g p = []) -> flat_map g l = [].
Proof. induction l as [|x l IH]; intros H; [reflexivity|]. cbn. rewrite (H x) by now left. apply IH. intros p P. apply H. now right. Qed.
Lemma flat_map_flat_map' {A B C} (f : A -> list B) (g : B -> list C) l : flat_map g (flat_map f l) = flat_map (fun x => flat_map g (f x)) l.
Proof. induction l as [|x l IH]; [reflexivity|]. cbn. now rewrite flat_map_app, IH. Qed.

(** *** Creation *)
Lemma sorted_ge l b : StronglySorted lt l -> Forall (fun x => b <= x) l -> forall k x, nth_error l k = Some x -> b + k <= x.
Proof.
  intros SS. revert b. induction SS as [|y l SS IH F]; intros b B k x E; [now destruct k|]. inversion B; subst.
  destruct k as [|k]; cbn in E; [injection E as <-; lia|]. rewrite Forall_forall in F.
  assert (L : Forall (fun z => S b <= z) l) by (apply Forall_forall; intros z Z; apply F in Z; lia). pose proof (IH (S b) L k x E). lia.
Qed.
Lemma sorted_nodup l : StronglySorted lt l -> NoDup l.
Proof. induction 1 as [|x l _ IH F]; constructor; auto. intros I. rewrite Forall_forall in F. apply F in I. lia. Qed.
(** The position of a member *)
Lemma find_member world group j : NoDup group -> j < length group ->
  find (fun i => nth i group world =? nth j group world) (seq 0 (length group)) = Some j.
Proof.
  intros N J. destruct (find _ _) as [i|] eqn:F.
  - apply find_some in F as (I & E). apply in_seq in I. apply Nat.eqb_eq in E. f_equal. rewrite NoDup_nth in N. apply N; [lia|exact J|].
    rewrite !(nth_indep group 0 world) by lia. exact E.
  - pose proof (find_none _ _ F j) as E. cbv beta in E. rewrite Nat.eqb_refl in E. discriminate E. apply in_seq. lia.
Qed.
Lemma find_other world group w : ~ In w group -> w < world ->
  find (fun i => nth i group world =? w) (seq 0 (length group)) = None.
Proof.
  intros N W. destruct (find _ _) as [i|] eqn:F; [|reflexivity]. apply find_some in F as (I & E). apply in_seq in I. apply Nat.eqb_eq in E.
  exfalso. apply N. rewrite <- E. apply nth_In. lia.
Qed.
Lemma sends_id d l id : sends_to d (map (fun i => Send i id) l) = flat_map (fun i => if i =? d then [id] else []) l.
Proof. unfold sends_to. induction l as [|x l IH]; [reflexivity|]. cbn. now rewrite IH. Qed.
Lemma recvs_id s l id : recvs_from s (map (fun i => Send i id) l) = [].
Proof. unfold recvs_from. induction l as [|x l IH]; [reflexivity|]. exact IH. Qed.
Lemma one_of a m d (id : list Z) : flat_map (fun i => if i =? d then [id] else []) (seq a m) = if (a <=? d) && (d <? a + m) then [id] else [].
Proof.
  revert a. induction m as [|m IH]; intros a; cbn [seq flat_map].
  - replace ((a <=? d) && (d <? a + 0)) with false; [reflexivity|]. symmetry. apply andb_false_iff.
    destruct (Nat.leb_spec a d); [right; apply Nat.ltb_ge; lia|now left].
  - rewrite IH. destruct (Nat.eqb_spec a d) as [->|N].
    + replace (S d <=? d) with false by (symmetry; apply Nat.leb_gt; lia). cbn [andb app]. rewrite Nat.leb_refl.
      now rewrite (proj2 (Nat.ltb_lt d (d + S m))) by lia.
    + cbn [app]. replace ((S a <=? d) && (d <? S a + m)) with ((a <=? d) && (d <? a + S m)); [reflexivity|].
      apply eq_true_iff_eq. rewrite !andb_true_iff, !Nat.leb_le, !Nat.ltb_lt. lia.
Qed.
Lemma prog_member world group id j : NoDup group -> j < length group ->
  id_program world group id (nth j group world) = match j with 0 => map (fun i => Send i id) (seq 1 (length group - 1)) | S _ => [Recv 0 0 (length id)] end.
Proof. intros N J. unfold id_program. rewrite find_member by auto. now destruct j. Qed.
Lemma prog_other world group id w : ~ In w group -> w < world -> id_program world group id w = [].
Proof. intros N W. unfold id_program. now rewrite find_other. Qed.
Lemma group_fits world group : proper_group world group -> length group <= world.
Proof.
  intros (SS & F & L). rewrite <- (seq_length world 0). apply NoDup_incl_length; [now apply sorted_nodup|].
  intros x X. rewrite Forall_forall in F. apply in_seq. specialize (F x X). lia.
Qed.

(** ** Theorems *)
(** A group can be created exactly if it consists of the first ranks of the world. *)
Theorem C60_created_iff world group id : proper_group world group ->
  (exists bufs, create_group world group id = Some bufs) <-> group = seq 0 (length group).
Proof.
  intros P. pose proof (group_fits world group P) as W. destruct P as (SS & F & L). pose proof (sorted_nodup group SS) as N.
  set (n := length group) in *. unfold create_group, exchange.
  set (progs := map (id_program world group id) (seq 0 world)). assert (LP : length progs = world) by (unfold progs; now rewrite map_length, seq_length).
  assert (PR : forall w, w < world -> program progs w = id_program world group id w) by (intros w Hw; now apply program_map).
  split.
  - intros (bufs & E). destruct (matched progs) eqn:M; [|discriminate]. clear E. rewrite matched_iff, LP in M.
    rewrite Forall_forall in F.
    assert (G0 : nth 0 group world < world) by (apply F, nth_In; lia).
    assert (R : forall i, 1 <= i < n -> nth 0 group world = 0 /\ In i group).
    { intros i I. specialize (M (nth 0 group world) i G0 ltac:(lia)). rewrite !PR in M by lia.
      rewrite prog_member in M by (auto; lia). rewrite sends_id, one_of in M. rewrite (proj2 (andb_true_iff _ _)) in M.
      2:{ split; [apply Nat.leb_le|apply Nat.ltb_lt]; fold n; lia. }
      destruct (in_dec Nat.eq_dec i group) as [Ii|Ni].
      - split; [|exact Ii]. apply In_nth with (d := world) in Ii as (j & J & <-). rewrite prog_member in M by auto.
        destruct j as [|j]; [rewrite recvs_id in M; discriminate|]. cbn [recvs_from flat_map app] in M. destruct (Nat.eqb_spec 0 (nth 0 group world)); [auto|discriminate].
      - rewrite prog_other in M by (auto; lia). discriminate. }
    assert (A : forall i, i < n -> In i group).
    { intros [|i] I; [|apply R; lia]. destruct (R 1 ltac:(lia)) as (Z & _). rewrite <- Z. apply nth_In. lia. }
    apply nth_ext with (d := 0) (d' := 0); [now rewrite seq_length|]. fold n. intros i I. rewrite seq_nth by exact I. cbn.
    induction i as [i IH] using (well_founded_induction lt_wf). pose proof (A i I) as Ai. apply In_nth_error in Ai as (k & K).
    assert (KN : k < n) by (apply nth_error_Some; congruence).
    pose proof (sorted_ge group 0 SS (proj2 (Forall_forall _ _) (fun x _ => Nat.le_0_l x)) k i K) as KI. cbn in KI.
    destruct (Nat.eq_dec k i) as [->|NK]; [now apply nth_error_nth with (d := 0) in K|].
    pose proof (IH k ltac:(lia) KN) as E. apply nth_error_nth with (d := 0) in K. rewrite E in K. congruence.
  - intros G. assert (GN : forall j, j < n -> nth j group world = j) by (intros j J; rewrite G, seq_nth by exact J; reflexivity).
    assert (P0 : id_program world group id 0 = map (fun i => Send i id) (seq 1 (n - 1))).
    { rewrite <- (GN 0) at 1 by lia. rewrite prog_member by (auto; lia). reflexivity. }
    assert (PS : forall j, 0 < j < n -> id_program world group id j = [Recv 0 0 (length id)]).
    { intros j J. rewrite <- (GN j) at 1 by lia. rewrite prog_member by (auto; fold n; lia). destruct j; [lia|reflexivity]. }
    assert (PO : forall j, n <= j < world -> id_program world group id j = []).
    { intros j J. apply prog_other; [|lia]. rewrite G. intros I. apply in_seq in I. lia. }
    assert (M : matched progs = true).
    { apply matched_iff. rewrite LP. intros s d Hs Hd. rewrite !PR by auto.
      destruct (Nat.eq_dec s 0) as [->|Ns].
      - rewrite P0, sends_id, one_of. destruct (Nat.eq_dec d 0) as [->|Nd].
        + rewrite P0, recvs_id. reflexivity.
        + destruct (Nat.lt_ge_cases d n).
          * rewrite (proj2 (andb_true_iff _ _)) by (split; [apply Nat.leb_le|apply Nat.ltb_lt]; lia). rewrite PS by lia. reflexivity.
          * replace ((1 <=? d) && (d <? 1 + (n - 1))) with false by (symmetry; apply andb_false_iff; right; apply Nat.ltb_ge; lia).
            rewrite PO by lia. reflexivity.
      - assert (X : sends_to d (id_program world group id s) = []).
        { destruct (Nat.lt_ge_cases s n); [rewrite PS by lia|rewrite PO by lia]; reflexivity. }
        rewrite X. destruct (Nat.eq_dec d 0) as [->|Nd]; [rewrite P0, recvs_id; reflexivity|].
        destruct (Nat.lt_ge_cases d n); [rewrite PS by lia|rewrite PO by lia]; [|reflexivity].
        destruct s; [congruence|reflexivity]. }
    rewrite M. eauto.
Qed.
(** ... and then every other member has received the id. *)
Theorem C60_id_partial world group id : proper_group world group -> group = seq 0 (length group) ->
  exists bufs, create_group world group id = Some bufs /\ id_received group id bufs.
Proof.
  intros P G. pose proof (proj2 (C60_created_iff world group id P) G) as (bufs & E). exists bufs. split; [exact E|].
  pose proof (group_fits world group P) as W. destruct P as (SS & F & L). pose proof (sorted_nodup group SS) as N.
  unfold create_group, exchange in E. destruct (matched _); [|discriminate]. injection E as <-.
  set (n := length group) in *. assert (GN : forall j, j < n -> nth j group world = j) by (intros j J; rewrite G, seq_nth by exact J; reflexivity).
  intros j J. rewrite (nth_indep group 0 world), GN by (fold n; lia). rewrite map_length, seq_length. rewrite nth_map_seq by lia.
  unfold arriving. rewrite map_length, seq_length.
  assert (P0 : id_program world group id 0 = map (fun i => Send i id) (seq 1 (n - 1))).
  { rewrite <- (GN 0) at 1 by lia. rewrite prog_member by (auto; lia). reflexivity. }
  assert (PJ : id_program world group id j = [Recv 0 0 (length id)]).
  { rewrite <- (GN j) at 1 by lia. rewrite prog_member by (auto; fold n; lia). destruct j; [lia|reflexivity]. }
  rewrite (flat_map_unique _ world 0); [|lia|intros p Np; rewrite program_map, PJ by lia; destruct p; [congruence|reflexivity]].
  rewrite !program_map, PJ, P0 by lia. rewrite sends_id, one_of. rewrite (proj2 (andb_true_iff _ _)) by (split; [apply Nat.leb_le|apply Nat.ltb_lt]; lia).
  cbn [recvs_from flat_map Nat.eqb app map fst combine fold_left snd].
  rewrite (nth_indep _ [] [[]]) by (rewrite repeat_length; lia). now rewrite nth_repeat.
Qed.
(** Any other group of a world with two or more members, such as ranks 1 and 2 of 3, waits for ever. *)
Theorem C60_create_refuted : ~ claim_create.
Proof.
  intros C. assert (P : proper_group 3 [1; 2]).
  { split; [repeat constructor; lia|]. split; [repeat constructor; lia|cbn; lia]. }
  destruct (C 3 [1; 2] [7%Z] P) as (bufs & E & _). assert (X : [1; 2] = seq 0 2) by (apply (C60_created_iff 3 [1; 2] [7%Z] P); eauto). discriminate.
Qed.

(** *** Operations *)
Lemma set_row_len rows i x : length (set_row rows i x) = length rows.
Proof. revert i. induction rows as [|r rows IH]; intros [|i]; cbn; auto. Qed.
Lemma set_row_same rows i x : i < length rows -> row (set_row rows i x) i = x.
Proof. unfold row. revert i. induction rows as [|r rows IH]; intros [|i] H; cbn in *; try lia; auto. apply IH. lia. Qed.
Lemma set_row_other rows i j x : i <> j -> row (set_row rows i x) j = row rows j.
Proof. unfold row. revert i j. induction rows as [|r rows IH]; intros [|i] [|j] H; cbn; auto; try congruence. Qed.
Definition store_all (l : list (nat * list Z)) (rows : list (list Z)) : list (list Z) :=
  fold_left (fun rows (ix : nat * list Z) => set_row rows (fst ix) (snd ix)) l rows.
Lemma store_all_len l rows : length (store_all l rows) = length rows.
Proof. revert rows. induction l as [|x l IH]; intros rows; [reflexivity|]. cbn. unfold store_all in IH. rewrite IH. apply set_row_len. Qed.
Lemma store_all_other l rows p : ~ In p (map fst l) -> row (store_all l rows) p = row rows p.
Proof.
  revert rows. induction l as [|[i x] l IH]; intros rows H; [reflexivity|]. cbn [map fst In] in H.
  change (row (store_all l (set_row rows i x)) p = row rows p). rewrite IH by tauto. apply set_row_other. tauto.
Qed.
Lemma store_all_in l rows p x : NoDup (map fst l) -> In (p, x) l -> p < length rows -> row (store_all l rows) p = x.
Proof.
  revert rows. induction l as [|[i y] l IH]; intros rows N I H; [destruct I|]. cbn in N. inversion N as [|? ? NI N']; subst.
  destruct I as [E|I].
  - injection E as -> ->. change (row (store_all l (set_row rows p x)) p = x). rewrite store_all_other by exact NI. now apply set_row_same.
  - change (row (store_all l (set_row rows i y)) p = x). apply IH; auto. now rewrite set_row_len.
Qed.
(** Everybody else's messages, one of each *)
Definition others (d n : nat) (X : nat -> list Z) : list (nat * list Z) := flat_map (fun s => if s =? d then [] else [(s, X s)]) (seq 0 n).
Lemma others_fst d n X : map fst (others d n X) = filter (fun s => negb (s =? d)) (seq 0 n).
Proof. unfold others. induction (seq 0 n) as [|s l IH]; [reflexivity|]. cbn. rewrite map_app, IH. now destruct (s =? d). Qed.
Lemma others_row d n X rows p : length rows = n -> p < n -> row (store_all (others d n X) rows) p = if p =? d then row rows p else X p.
Proof.
  intros L P. destruct (Nat.eqb_spec p d) as [->|N].
  - apply store_all_other. rewrite others_fst. intros I. apply filter_In in I as (_ & I). rewrite Nat.eqb_refl in I. discriminate.
  - apply store_all_in; [|unfold others; apply in_flat_map; exists p; split; [apply in_seq; lia|]|lia].
    + rewrite others_fst. apply NoDup_filter, seq_NoDup.
    + rewrite (proj2 (Nat.eqb_neq p d) N). now left.
Qed.
Lemma matrix_row n q rows i : matrix n q rows -> i < n -> length (row rows i) = q.
Proof. intros (L & F) I. rewrite Forall_forall in F. apply F, nth_In. lia. Qed.
Lemma matrix_total n q rows : matrix n q rows -> total rows = n * q.
Proof.
  intros (L & F). unfold total. subst n. induction F as [|r rows E _ IH]; [reflexivity|]. cbn [map list_sum fold_right length].
  unfold list_sum in IH. rewrite IH, E. cbn. lia.
Qed.

(** Member [r] receives, as its p-th row, member [p]'s r-th row. *)
Theorem C60_alltoall n q sends recvs : length sends = n -> length recvs = n ->
  (forall r, r < n -> matrix n q (nth r sends []) /\ matrix n q (nth r recvs [])) ->
  exists res, alltoall sends recvs = Some res /\ length res = n /\
    forall r p, r < n -> p < n -> row (nth r res []) p = row (nth p sends []) r.
Proof.
  intros LS LR H. unfold alltoall. rewrite LS.
  rewrite (proj2 (forallb_forall _ _)).
  2:{ intros r R. apply in_seq in R. destruct (H r ltac:(lia)) as (A & B). rewrite !(matrix_total n q), !(matrix_row n q) by (auto; lia).
      destruct A as (A & _). rewrite A, !Nat.eqb_refl. reflexivity. }
  set (f := fun r => alltoall_program n (nth r sends []) (nth r recvs []) r).
  assert (SD : forall s d, s < n -> d < n -> sends_to d (f s) = if s =? d then [] else [row (nth s sends []) d]).
  { intros s d Ss D. unfold f, alltoall_program, sends_to. rewrite flat_map_flat_map'. rewrite (flat_map_unique _ n d D).
    - rewrite (Nat.eqb_sym s d). destruct (d =? s); [reflexivity|]. destruct (d <? s); cbn; now rewrite Nat.eqb_refl.
    - intros p Np. apply Nat.eqb_neq in Np. destruct (p =? s); [reflexivity|]. destruct (p <? s); cbn; now rewrite Np. }
  assert (RD : forall s d, s < n -> d < n -> recvs_from s (f d) = if s =? d then [] else [(s, q)]).
  { intros s d Ss D. unfold f, alltoall_program, recvs_from. rewrite flat_map_flat_map'. rewrite (flat_map_unique _ n s Ss).
    - rewrite (matrix_row n q) by (try lia; apply H; lia). destruct (s =? d); [reflexivity|]. destruct (s <? d); cbn; now rewrite Nat.eqb_refl.
    - intros p Np. apply Nat.eqb_neq in Np. destruct (p =? d); [reflexivity|]. destruct (p <? d); cbn; now rewrite Np. }
  unfold exchange. rewrite map_length, seq_length.
  assert (M : matched (map f (seq 0 n)) = true).
  { apply matched_iff. rewrite map_length, seq_length. intros s d Hs Hd. rewrite !program_map, SD, RD by auto. destruct (s =? d); [reflexivity|].
    cbn. now rewrite (matrix_row n q) by (try lia; apply H; lia). }
  rewrite M. eexists. split; [reflexivity|]. split; [now rewrite map_length, seq_length|].
  intros r p R P. rewrite nth_map_seq by exact R.
  assert (A : arriving (map f (seq 0 n)) r = others r n (fun s => row (nth s sends []) r)).
  { unfold arriving, others. rewrite map_length, seq_length.
    assert (E : forall l, (forall s, In s l -> s < n) -> flat_map (fun s => combine (map fst (recvs_from s (program (map f (seq 0 n)) r))) (sends_to r (program (map f (seq 0 n)) s))) l
      = flat_map (fun s => if s =? r then [] else [(s, row (nth s sends []) r)]) l).
    { induction l as [|s l IH]; intros Hl; [reflexivity|]. cbn [flat_map]. rewrite IH by (intros; apply Hl; now right).
      rewrite !program_map, SD, RD by (auto; apply Hl; now left). destruct (s =? r); reflexivity. }
    apply E. intros s I. apply in_seq in I. lia. }
  rewrite A. fold (store_all (others r n (fun s => row (nth s sends []) r)) (nth r (map (fun r => set_row (nth r recvs []) r (row (nth r sends []) r)) (seq 0 n)) [])).
  destruct (H r R) as (_ & (LRr & _)). rewrite nth_map_seq by exact R. rewrite others_row by (rewrite ?set_row_len; auto).
  destruct (Nat.eqb_spec p r) as [->|]; [|reflexivity]. apply set_row_same. lia.
Qed.
(** The root's p-th row is what member [p] sent; the other buffers are unchanged. *)
Theorem C60_gather n q root sends recvs : length sends = n -> length recvs = n -> root < n ->
  (forall r, r < n -> length (nth r sends []) = q /\ matrix n q (nth r recvs [])) ->
  exists res, gather root sends recvs = Some res /\ length res = n /\
    (forall p, p < n -> row (nth root res []) p = nth p sends []) /\
    forall r, r < n -> r <> root -> nth r res [] = nth r recvs [].
Proof.
  intros LS LR R0 H. unfold gather. rewrite LS.
  rewrite (proj2 (andb_true_iff _ _)).
  2:{ split.
      - apply forallb_forall. intros r R. apply in_seq in R. destruct (H r ltac:(lia)) as (A & B). rewrite (matrix_total n q), A by auto. apply Nat.eqb_eq. lia.
      - destruct (H root R0) as (A & B). rewrite A, (matrix_row n q) by auto. apply Nat.eqb_refl. }
  set (f := fun r => gather_program n root (nth r sends []) (nth r recvs []) r).
  assert (SD : forall s d, s < n -> d < n -> sends_to d (f s) = if negb (s =? root) && (d =? root) then [nth s sends []] else []).
  { intros s d Ss D. unfold f, gather_program. destruct (s =? root); cbn [negb andb].
    - unfold sends_to. rewrite flat_map_flat_map'. apply flat_map_none. intros p _. now destruct (p =? s).
    - cbn. rewrite (Nat.eqb_sym root d). now destruct (d =? root). }
  assert (RD : forall s d, s < n -> d < n -> recvs_from s (f d) = if negb (s =? root) && (d =? root) then [(s, q)] else []).
  { intros s d Ss D. unfold f, gather_program. destruct (Nat.eqb_spec d root) as [->|Nd].
    - rewrite andb_true_r. unfold recvs_from. rewrite flat_map_flat_map'. rewrite (flat_map_unique _ n s Ss).
      + rewrite (matrix_row n q) by (try lia; apply H; lia). destruct (s =? root); cbn; [reflexivity|]. now rewrite Nat.eqb_refl.
      + intros p Np. apply Nat.eqb_neq in Np. destruct (p =? root); [reflexivity|]. cbn. now rewrite Np.
    - rewrite andb_false_r. reflexivity. }
  unfold exchange. rewrite map_length, seq_length.
  assert (M : matched (map f (seq 0 n)) = true).
  { apply matched_iff. rewrite map_length, seq_length. intros s d Hs Hd. rewrite !program_map, SD, RD by auto.
    destruct (negb (s =? root) && (d =? root)); [|reflexivity]. cbn. now rewrite (proj1 (H s Hs)). }
  rewrite M. eexists. split; [reflexivity|]. split; [now rewrite map_length, seq_length|].
  assert (A : forall r, r < n -> arriving (map f (seq 0 n)) r = if r =? root then others r n (fun s => nth s sends []) else []).
  { intros r R. unfold arriving, others. rewrite map_length, seq_length.
    assert (E : forall l, (forall s, In s l -> s < n) -> flat_map (fun s => combine (map fst (recvs_from s (program (map f (seq 0 n)) r))) (sends_to r (program (map f (seq 0 n)) s))) l
      = if r =? root then flat_map (fun s => if s =? r then [] else [(s, nth s sends [])]) l else []).
    { induction l as [|s l IH]; intros Hl; [now destruct (r =? root)|]. cbn [flat_map]. rewrite IH by (intros; apply Hl; now right).
      rewrite !program_map, SD, RD by (auto; apply Hl; now left). destruct (Nat.eqb_spec r root) as [->|]; [|now rewrite andb_false_r].
      rewrite andb_true_r. destruct (s =? root); reflexivity. }
    apply E. intros s I. apply in_seq in I. lia. }
  split.
  - intros p P. rewrite nth_map_seq by exact R0. rewrite (A root R0), Nat.eqb_refl.
    fold (store_all (others root n (fun s => nth s sends [])) (nth root (map (fun r => if r =? root then set_row (nth r recvs []) r (nth r sends []) else nth r recvs []) (seq 0 n)) [])).
    rewrite nth_map_seq, Nat.eqb_refl by exact R0. destruct (H root R0) as (_ & (L & _)). rewrite others_row by (rewrite ?set_row_len; auto).
    destruct (Nat.eqb_spec p root) as [->|]; [|reflexivity]. apply set_row_same. lia.
  - intros r R Nr. rewrite nth_map_seq by exact R. rewrite (A r R). apply Nat.eqb_neq in Nr. rewrite Nr. cbn [fold_left]. rewrite nth_map_seq by exact R. now rewrite Nr.
Qed.
(** Member [r] receives the r-th of the root's data. *)
Theorem C60_scatter n root send recvs : length send = n -> length recvs = n -> root < n ->
  (forall r, r < n -> length (nth r recvs []) = length (nth r send [])) ->
  exists res, scatter root send recvs = Some res /\ length res = n /\ forall r, r < n -> nth r res [] = [nth r send []].
Proof.
  intros LS LR R0 H. unfold scatter. rewrite LS, LR, Nat.eqb_refl, H by exact R0. unfold row at 1. rewrite Nat.eqb_refl. cbn [andb].
  set (f := fun r => scatter_program n root send (nth r recvs []) r).
  assert (SD : forall s d, s < n -> d < n -> sends_to d (f s) = if (s =? root) && negb (d =? root) then [nth d send []] else []).
  { intros s d Ss D. unfold f, scatter_program. destruct (s =? root); cbn [andb]; [|reflexivity].
    unfold sends_to. rewrite flat_map_flat_map'. rewrite (flat_map_unique _ n d D).
    - destruct (d =? root); cbn; [reflexivity|]. now rewrite Nat.eqb_refl.
    - intros p Np. apply Nat.eqb_neq in Np. destruct (p =? root); [reflexivity|]. cbn. now rewrite Np. }
  assert (RD : forall s d, s < n -> d < n -> recvs_from s (f d) = if (s =? root) && negb (d =? root) then [(0, length (nth d recvs []))] else []).
  { intros s d Ss D. unfold f, scatter_program. destruct (Nat.eqb_spec d root) as [->|Nd]; cbn [negb].
    - rewrite andb_false_r. unfold recvs_from. rewrite flat_map_flat_map'. apply flat_map_none. intros p _. now destruct (p =? root).
    - rewrite andb_true_r. cbn. rewrite (Nat.eqb_sym root s). now destruct (s =? root). }
  unfold exchange. rewrite map_length, seq_length.
  assert (M : matched (map f (seq 0 n)) = true).
  { apply matched_iff. rewrite map_length, seq_length. intros s d Hs Hd. rewrite !program_map, SD, RD by auto.
    destruct ((s =? root) && negb (d =? root)); [|reflexivity]. cbn. now rewrite H. }
  rewrite M. eexists. split; [reflexivity|]. split; [now rewrite map_length, seq_length|].
  intros r R. rewrite nth_map_seq by exact R. unfold arriving. rewrite map_length, seq_length.
  rewrite (flat_map_unique _ n root R0).
  - rewrite !program_map, SD, RD, Nat.eqb_refl by auto. rewrite nth_map_seq by exact R. destruct (Nat.eqb_spec r root) as [->|]; reflexivity.
  - intros p Np. destruct (Nat.lt_ge_cases p n) as [Pn|Pn].
    + rewrite !program_map, SD by auto. apply Nat.eqb_neq in Np. rewrite Np. cbn. now destruct (map fst _).
    + unfold program at 2. rewrite (nth_overflow (map f (seq 0 n))) by (rewrite map_length, seq_length; lia). cbn. now destruct (map fst _).
Qed.
(** A receive buffer with as many elements but other rows, such as a flat one, passes gather's check and hangs or raises. *)
Theorem C60_flat_buffer_refuted : ~ (forall root sends recvs, root < length sends -> length recvs = length sends ->
  (forall r, r < length sends -> total (nth r recvs []) = length (nth r sends []) * length sends) -> gather root sends recvs <> None).
Proof.
  intros C. apply (C 0 [[1; 2]; [3; 4]]%Z [[[0]; [0]; [0]; [0]]; [[0]; [0]; [0]; [0]]]%Z); [cbn; lia|reflexivity| |reflexivity].
  intros [|[|r]] R; cbn in *; lia.
Qed.

Module Demo.
  Example created : create_group 4 [0; 1; 2] [7%Z; 8%Z] = Some [[[]]; [[7; 8]]; [[7; 8]]; [[]]]%Z.
  Proof. reflexivity. Qed.
  Example created_ok : proper_group 4 [0; 1; 2].
  Proof. split; [repeat constructor; lia|]. split; [repeat constructor; lia|cbn; lia]. Qed.
  Example exchanged : alltoall [[[1]; [2]]; [[3]; [4]]]%Z [[[0]; [0]]; [[0]; [0]]]%Z = Some [[[1]; [3]]; [[2]; [4]]]%Z.
  Proof. reflexivity. Qed.
  Example gathered : gather 1 [[1; 2]; [3; 4]]%Z [[[0; 0]; [0; 0]]; [[0; 0]; [0; 0]]]%Z = Some [[[0; 0]; [0; 0]]; [[1; 2]; [3; 4]]]%Z.
  Proof. reflexivity. Qed.
  Example scattered : scatter 1 [[1; 2]; [3; 4]]%Z [[0; 0]; [0; 0]]%Z = Some [[[1; 2]]; [[3; 4]]]%Z.
  Proof. reflexivity. Qed.
End Demo.

Print Assumptions C60_created_iff.
Print Assumptions C60_id_partial.
Print Assumptions C60_create_refuted.
Print Assumptions C60_alltoall.
Print Assumptions C60_gather.
Print Assumptions C60_scatter.
Print Assumptions C60_flat_buffer_refuted.
