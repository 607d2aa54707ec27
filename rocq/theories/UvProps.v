(** * C56: after installing packages the requirements are met

    How to read.  [install_packages U idx dists env specs skip] is
    [manager.install_packages(specs, index_url=idx, skip_installed=skip)] for a virtual
    environment with the packages [env] on a system whose directories hold [dists];
    the answer is the new content of the environment, or [None] when the call raised.
    Python finds the packages [visible env dists].  [U] is the uv program; it is
    assumed to do what it documents ([uv_ok]): the plan of a dry run and a plain
    installation make the environment alone serve the requirements with all their
    dependencies, and a plan respects the constraints. *)
From Coq Require Import List Bool Arith Lia.
From Verif Require Import UvModel.
Import ListNotations.

(** ** Specification *)
Record meta := mkMeta { deps : name -> version -> list req; extra_deps : name -> version -> nat -> list req }.
Definition means (n : nat) (c : clause) : Prop :=
  match c with Ge w => w <= n | Lt w => n < w | Eq w => n = w | Ne w => n <> w end.
Definition allows (s : list clause) (v : version) : Prop :=
  s = [] \/ exists n, v = Good n /\ forall c, In c s -> means n c.
(** The requirement itself is met *)
Definition meets (U : uv) (vis : name -> option version) (r : req) : Prop :=
  exists v, vis (rname r) = Some v /\ allows (specifier r) v /\
    match rurl r with None => True | Some u => build U u = Some (rname r, v) end.
(** ... and so is everything it depends on, directly or not (dependencies may be circular) *)
Definition needs (M : meta) (r : req) (v : version) (d : req) : Prop :=
  In d (deps M (rname r) v) \/ exists e, In e (extras r) /\ In d (extra_deps M (rname r) v e).
Definition works (M : meta) (U : uv) (vis : name -> option version) (r : req) : Prop :=
  exists K : req -> Prop, K r /\ forall k, K k ->
    meets U vis k /\ forall v d, vis (rname k) = Some v -> needs M k v d -> K d.
Definition served (M : meta) (U : uv) (vis : name -> option version) (s : spec) : Prop :=
  match s with
  | Named r => works M U vis r
  | Vcs u => exists n v, build U u = Some (n, v) /\ works M U vis (mkReq n [] [] (Some u))
  end.
(** The environment once a plan has been carried out *)
Fixpoint after (ls : list line) (env : table) (n : name) : option version :=
  match ls with [] => lookup env n | l :: r => if lname l =? n then Some (lver l) else after r env n end.
Definition uv_ok (M : meta) (U : uv) : Prop :=
  (forall idx env specs pins ls, dry U idx env specs pins = Some ls ->
     NoDup (map lname ls) /\ (forall s, In s specs -> served M U (after ls env) s) /\
     (forall l v, In l ls -> In (lname l, v) pins -> lver l = v)) /\
  (forall idx env specs env', full U idx env specs = Some env' -> forall s, In s specs -> served M U (lookup env') s).

(** The property *)
Definition claim : Prop := forall M U idx dists env specs skip env',
  uv_ok M U -> install_packages U idx dists env specs skip = Some env' ->
  forall s, In s specs -> served M U (visible env' dists) s.

(** What the partial theorems ask for *)
Definition plain_names (specs : list spec) : Prop := forall s, In s specs -> exists r, s = Named r /\ rurl r = None.
Definition from_index_only (U : uv) : Prop := forall idx env specs pins ls,
  dry U idx env specs pins = Some ls -> forall l, In l ls -> lfrom l = None.
Definition shadowed (env dists : table) (n : name) : Prop :=
  exists v w, lookup env n = Some v /\ lookup dists n = Some w /\ v <> w.

(** ** Proofs *)
Lemma works_mono M U vis vis' r :
  (forall n v, vis n = Some v -> vis' n = Some v) -> works M U vis r -> works M U vis' r.
Proof.
  intros H (K & HK & Hc). exists K. split; [exact HK|]. intros k Hk. destruct (Hc k Hk) as ((v & Hv & Ha & Hu) & Hd).
  split; [exists v; split; [now apply H|auto]|].
  intros v' d Hv' Hn. apply H in Hv as Hv2. rewrite Hv2 in Hv'. injection Hv' as <-. now apply (Hd v).
Qed.
Lemma served_mono M U vis vis' s :
  (forall n v, vis n = Some v -> vis' n = Some v) -> served M U vis s -> served M U vis' s.
Proof.
  intros H. destruct s; cbn.
  - intros (n & v & Hb & Hw). exists n, v. split; [exact Hb|]. now apply (works_mono _ _ vis).
  - now apply works_mono.
Qed.
Lemma lookup_without t n m : lookup (without t n) m = if m =? n then None else lookup t m.
Proof.
  unfold without. induction t as [|[k v] t IH]; cbn; [now destruct (m =? n)|].
  destruct (Nat.eqb_spec k n) as [->|Hk]; cbn.
  - rewrite IH. destruct (Nat.eqb_spec m n) as [E|Hm]; [reflexivity|]. destruct (Nat.eqb_spec n m); congruence.
  - rewrite IH. destruct (Nat.eqb_spec k m) as [E|Hm]; [|reflexivity]. destruct (Nat.eqb_spec m n); congruence.
Qed.
Lemma lookup_put t n v m : lookup (put t n v) m = if m =? n then Some v else lookup t m.
Proof.
  unfold put. cbn. rewrite lookup_without. rewrite (Nat.eqb_sym n m). now destruct (m =? n).
Qed.
Lemma lookup_in t n v : lookup t n = Some v -> In (n, v) t.
Proof.
  induction t as [|[k w] t IH]; cbn; [discriminate|]. destruct (Nat.eqb_spec k n) as [->|].
  - intros H. injection H as ->. now left.
  - intros H. right. now apply IH.
Qed.
Lemma lookup_none t n : lookup t n = None <-> ~ In n (map fst t).
Proof.
  induction t as [|[k w] t IH]; cbn; [easy|]. destruct (Nat.eqb_spec k n) as [->|].
  - split; [discriminate|]. intros H. exfalso. apply H. now left.
  - rewrite IH. intuition congruence.
Qed.
Lemma in_lookup t n v : NoDup (map fst t) -> In (n, v) t -> lookup t n = Some v.
Proof.
  induction t as [|[k w] t IH]; cbn; [easy|]. intros Hn [H|H]; inversion Hn; subst.
  - injection H as -> ->. now rewrite Nat.eqb_refl.
  - destruct (Nat.eqb_spec k n) as [->|]; [|now apply IH]. exfalso. apply H2. apply in_map_iff. now exists (n, v).
Qed.
Lemma installed_lookup dists n : NoDup (map fst dists) -> lookup (installed dists) n = lookup dists n.
Proof.
  unfold installed. assert (H : forall acc, NoDup (map fst dists) -> lookup (fold_left (fun d e => put d (fst e) (snd e)) dists acc) n
    = match lookup dists n with Some v => Some v | None => lookup acc n end).
  { induction dists as [|[k v] t IH]; intros acc Hn; cbn; [reflexivity|]. inversion Hn; subst. rewrite IH by assumption.
    rewrite lookup_put, (Nat.eqb_sym n k). destruct (Nat.eqb_spec k n) as [->|]; [|reflexivity].
    apply lookup_none in H1. cbn in H1. now rewrite H1. }
  intros Hn. rewrite H by assumption. cbn. now destruct (lookup dists n).
Qed.
Lemma forallb_means n s : forallb (holds n) s = true <-> forall c, In c s -> means n c.
Proof.
  assert (H1 : forall c, holds n c = true <-> means n c).
  { intros [v|v|v|v]; cbn.
    - apply Nat.leb_le.
    - apply Nat.ltb_lt.
    - apply Nat.eqb_eq.
    - rewrite negb_true_iff. apply Nat.eqb_neq. }
  rewrite forallb_forall. split; intros H c Hc; apply H1; now apply H.
Qed.

(** How the requirements are sorted *)
Definition provided (inst : table) (r : req) : Prop := exists v, lookup inst (rname r) = Some v /\ allows (specifier r) v.
Lemma split_spec inst specs keep todo pinned : split_specs inst specs = (keep, todo, pinned) ->
  (forall u, In u keep <-> In (Vcs u) specs) /\
  (forall s, In s todo -> exists r, s = Named r /\ In s specs /\ ~ provided inst r) /\
  (forall r, In (Named r) specs -> (provided inst r /\ exists v, lookup inst (rname r) = Some v /\ In (rname r, v) pinned)
     \/ (~ provided inst r /\ In (Named r) todo)) /\
  (forall n v, In (n, v) pinned -> lookup inst n = Some v).
Proof.
  revert keep todo pinned. induction specs as [|s specs IH]; cbn; intros keep todo pinned H.
  - injection H as <- <- <-. cbn. repeat split; intros; easy.
  - destruct (split_specs inst specs) as [[keep0 todo0] pinned0]. destruct (IH _ _ _ eq_refl) as (Hk & Ht & Hr & Hp). clear IH.
    destruct s as [u|r].
    + injection H as <- <- <-. split; [|split; [|split]].
      * intros u0. cbn. rewrite Hk. split; intros [E|E]; auto; left; congruence.
      * intros s Hs. destruct (Ht s Hs) as (r & -> & Hi & Hn). exists r. auto.
      * intros r [E|Hi]; [discriminate|]. now apply Hr.
      * exact Hp.
    + assert (Dec : match lookup inst (rname r) with
                    | None => ~ provided inst r
                    | Some v => (if match specifier r with [] => true | _ => false end then true
                                 else match in_specifier v (specifier r) with Some true => true | _ => false end) = true <-> provided inst r
                    end).
      { unfold provided, allows. destruct (lookup inst (rname r)) as [v|]; [|intros (v & E & _); discriminate].
        destruct (specifier r) as [|c cs] eqn:Es; [split; intros _; [exists v; auto|reflexivity]|].
        destruct v as [n|t]; cbn [in_specifier].
        - destruct (forallb (holds n) (c :: cs)) eqn:Ef.
          + split; [intros _|reflexivity]. exists (Good n). split; [reflexivity|]. right. exists n. split; [reflexivity|]. now apply forallb_means.
          + split; [discriminate|]. intros (v & E & [E0|(m & E0 & Hm)]); [discriminate|]. injection E as <-. injection E0 as <-.
            apply forallb_means in Hm. congruence.
        - split; [discriminate|]. intros (v & E & [E0|(m & E0 & Hm)]); [discriminate|]. congruence. }
      assert (Hno : ~ provided inst r -> (keep0, Named r :: todo0, pinned0) = (keep, todo, pinned) ->
        (forall u : url, In u keep <-> Named r = Vcs u \/ In (Vcs u) specs) /\
        (forall s : spec, In s todo -> exists r0 : req, s = Named r0 /\ (Named r = s \/ In s specs) /\ ~ provided inst r0) /\
        (forall r0 : req, Named r = Named r0 \/ In (Named r0) specs ->
         provided inst r0 /\ (exists v : version, lookup inst (rname r0) = Some v /\ In (rname r0, v) pinned) \/
         ~ provided inst r0 /\ In (Named r0) todo) /\
        (forall (n : name) (v : version), In (n, v) pinned -> lookup inst n = Some v)).
      { intros Hn E. injection E as <- <- <-. split; [|split; [|split]].
        - intros u. rewrite Hk. split; [auto|]. intros [E|E]; [discriminate|exact E].
        - intros s [<-|Hs]; [exists r; auto|]. destruct (Ht s Hs) as (r0 & -> & Hi & Hn0). exists r0. auto.
        - intros r0 [E|Hi]; [injection E as <-; right; split; [exact Hn|now left]|].
          destruct (Hr r0 Hi) as [Hx|(Hx & Hy)]; [now left|right]. split; [exact Hx|now right].
        - exact Hp. }
      assert (Hyes : forall v, lookup inst (rname r) = Some v -> provided inst r -> (keep0, todo0, (rname r, v) :: pinned0) = (keep, todo, pinned) ->
        (forall u : url, In u keep <-> Named r = Vcs u \/ In (Vcs u) specs) /\
        (forall s : spec, In s todo -> exists r0 : req, s = Named r0 /\ (Named r = s \/ In s specs) /\ ~ provided inst r0) /\
        (forall r0 : req, Named r = Named r0 \/ In (Named r0) specs ->
         provided inst r0 /\ (exists v : version, lookup inst (rname r0) = Some v /\ In (rname r0, v) pinned) \/
         ~ provided inst r0 /\ In (Named r0) todo) /\
        (forall (n : name) (v : version), In (n, v) pinned -> lookup inst n = Some v)).
      { intros v Hv Hy E. injection E as <- <- <-. split; [|split; [|split]].
        - intros u. rewrite Hk. split; [auto|]. intros [E|E]; [discriminate|exact E].
        - intros s Hs. destruct (Ht s Hs) as (r0 & -> & Hi & Hn0). exists r0. auto.
        - intros r0 [E|Hi]; [injection E as <-; left; split; [exact Hy|exists v; split; [exact Hv|now left]]|].
          destruct (Hr r0 Hi) as [(Hx & w & Hw & Hi')|Hx]; [left|now right]. split; [exact Hx|exists w; split; [exact Hw|now right]].
        - intros n w [E|Hi]; [injection E as <- <-; exact Hv|now apply Hp]. }
      destruct (lookup inst (rname r)) as [v|] eqn:El; [|now apply Hno].
      destruct (match specifier r with [] => true | _ => false end) eqn:E1.
      * apply (Hyes v); auto. now apply Dec.
      * destruct (in_specifier v (specifier r)) as [[]|] eqn:E2.
        -- apply (Hyes v); auto. now apply Dec.
        -- apply Hno; [|exact H]. intros Hx. apply Dec in Hx. discriminate.
        -- apply Hno; [|exact H]. intros Hx. apply Dec in Hx. discriminate.
Qed.

(** Installing single items *)
Lemma no_deps_pins U idx plan env env' :
  no_deps U idx env (map (fun e => IPin (fst e) (snd e)) plan) = Some env' -> NoDup (map fst plan) ->
  forall n, lookup env' n = match lookup plan n with Some v => Some v | None => lookup env n end.
Proof.
  revert env. induction plan as [|[k v] plan IH]; intros env H Hn n; cbn in H |- *.
  - now injection H as <-.
  - destruct (fetch U idx (IPin k v)); [|discriminate]. inversion Hn; subst. rewrite (IH _ H H3). rewrite lookup_put, (Nat.eqb_sym n k).
    destruct (Nat.eqb_spec k n) as [->|]; [|reflexivity]. apply lookup_none in H2. cbn in H2. now rewrite H2.
Qed.
Lemma nodup_filter (f : name * version -> bool) t : NoDup (map fst t) -> NoDup (map fst (filter f t)).
Proof.
  induction t as [|e t IH]; cbn; [auto|]. intros H. inversion H; subst. destruct (f e); cbn; [|now apply IH].
  constructor; [|now apply IH]. intros Hi. apply H2. apply in_map_iff in Hi as (x & Ex & Hi). apply filter_In in Hi as [Hi _].
  apply in_map_iff. now exists x.
Qed.
Definition flat (ls : list line) : table :=
  flat_map (fun l => match lfrom l with None => [(lname l, lver l)] | Some _ => [] end) ls.
Lemma flat_all ls : (forall l, In l ls -> lfrom l = None) -> map fst (flat ls) = map lname ls /\
  forall env n, after ls env n = match lookup (flat ls) n with Some v => Some v | None => lookup env n end.
Proof.
  unfold flat. induction ls as [|l ls IH]; cbn; intros H; [split; reflexivity|].
  destruct IH as [I1 I2]; [intros x Hx; apply H; now right|]. rewrite (H l (or_introl eq_refl)). cbn. split; [now rewrite I1|].
  intros env n. destruct (lname l =? n); [reflexivity|]. apply I2.
Qed.
Lemma flat_in ls n v : In (n, v) (flat ls) -> exists l, In l ls /\ lname l = n /\ lver l = v.
Proof.
  unfold flat. intros H. apply in_flat_map in H as (l & Hl & H). exists l. split; [exact Hl|].
  destruct (lfrom l); cbn in H; [destruct H|]. destruct H as [H|[]]. injection H as <- <-. auto.
Qed.
Lemma nodup_flat ls : NoDup (map lname ls) -> NoDup (map fst (flat ls)).
Proof.
  induction ls as [|l ls IH]; cbn; intros H; [constructor|]. inversion H; subst. destruct (lfrom l); cbn; [now apply IH|].
  constructor; [|now apply IH]. intros Hi. apply H2. apply in_map_iff in Hi as ([k v] & Ek & Hi). cbn in Ek. subst k.
  apply flat_in in Hi as (l' & Hl' & En & _). apply in_map_iff. exists l'. auto.
Qed.
(** The plan, after filtering *)
Lemma new_spec inst n v : new inst (n, v) = true <-> lookup inst n <> Some v.
Proof.
  unfold new. cbn. destruct (lookup inst n) as [w|]; [|split; [discriminate|reflexivity]].
  destruct (version_eq_dec w v) as [->|Hw]; split; congruence.
Qed.
(** One installation with [skip_installed], taken apart *)
Lemma skip_run M U idx dists env specs env' :
  uv_ok M U -> (forall u, ~ In (Vcs u) specs) -> install_packages U idx dists env specs true = Some env' ->
  exists todo pinned, split_specs (installed dists) specs = ([], todo, pinned) /\
    ((todo = [] /\ env' = env) \/
     exists ls, dry U default_index env todo pinned = Some ls /\
       forall n, lookup env' n = match lookup (filter (new (installed dists)) (flat ls)) n with Some v => Some v | None => lookup env n end).
Proof.
  intros (Hdry & _) Hv H. unfold install_packages, filter_packages in H.
  destruct (split_specs (installed dists) specs) as [[keep todo] pinned] eqn:Es.
  assert (Hk : keep = []).
  { destruct (split_spec _ _ _ _ _ Es) as (Hk & _). destruct keep as [|u]; [reflexivity|]. exfalso. apply (Hv u). apply Hk. now left. }
  subst keep. exists todo, pinned. split; [reflexivity|].
  destruct specs as [|s0 specs]. { injection H as <-. left. cbn in Es. injection Es as <- <-. auto. }
  destruct todo as [|t0 todo]. { left. injection H as <-. auto. }
  right. unfold resolve_plan in H. destruct (dry U default_index env (t0 :: todo) pinned) as [ls|] eqn:Ed; [|discriminate].
  exists ls. split; [reflexivity|]. cbn [map app] in H. change (flat_map _ ls) with (flat ls) in H.
  destruct (Hdry _ _ _ _ _ Ed) as (Hnd & _). apply nodup_flat in Hnd. apply (nodup_filter (new (installed dists))) in Hnd.
  set (pl := filter (new (installed dists)) (flat ls)) in *. destruct pl as [|e pl'] eqn:Ep.
  - cbn in H. injection H as <-. reflexivity.
  - cbn [map] in H. now apply (no_deps_pins U idx (e :: pl')).
Qed.

(** ** Theorems *)
(** A plain installation does what it says. *)
Theorem C56_plain M U idx dists env specs env' :
  uv_ok M U -> specs <> [] -> install_packages U idx dists env specs false = Some env' ->
  forall s, In s specs -> served M U (visible env' dists) s.
Proof.
  intros (_ & Hf) Hne H s Hs. apply (served_mono _ _ (lookup env')).
  - intros n v Hv. unfold visible. now rewrite Hv.
  - destruct specs as [|s0 specs]; [now contradict Hne|]. exact (Hf _ _ _ _ H s Hs).
Qed.
(** With [skip_installed]: each requirement is met; those the system does not meet
    are served with all their dependencies.  Asked for: names from an index, each
    system package present once, and no system package shadowed by another version
    in the environment. *)
Theorem C56_skip_installed_partial M U idx dists env specs env' :
  uv_ok M U -> from_index_only U -> plain_names specs -> NoDup (map fst dists) ->
  (forall n, ~ shadowed env dists n) ->
  install_packages U idx dists env specs true = Some env' ->
  forall r, In (Named r) specs ->
    meets U (visible env' dists) r /\
    (~ meets U (lookup dists) r -> works M U (visible env' dists) r).
Proof.
  intros HU Hidx Hpn Hnd Hsh H r Hr.
  assert (Hv : forall u, ~ In (Vcs u) specs) by (intros u Hu; destruct (Hpn _ Hu) as (x & E & _); discriminate).
  destruct (skip_run _ _ _ _ _ _ _ HU Hv H) as (todo & pinned & Es & Hcase).
  destruct (split_spec _ _ _ _ _ Es) as (_ & Ht & Hs & Hp).
  assert (Hurl : rurl r = None) by (destruct (Hpn _ Hr) as (x & E & Hx); injection E as <-; exact Hx).
  assert (Hprov : provided (installed dists) r <-> meets U (lookup dists) r).
  { unfold provided, meets. rewrite Hurl, installed_lookup by assumption. split; [intros (v & A & B); exists v; auto|intros (v & A & B & _); exists v; auto]. }
  assert (Hkeep : forall n v, lookup dists n = Some v -> lookup env n = None \/ lookup env n = Some v).
  { intros n v Hn. destruct (lookup env n) as [w|] eqn:Ew; [|now left]. right. destruct (version_eq_dec w v) as [->|Hne]; [reflexivity|].
    exfalso. apply (Hsh n). exists w, v. auto. }
  assert (Hmain : (provided (installed dists) r -> meets U (visible env' dists) r) /\
                  (~ provided (installed dists) r -> works M U (visible env' dists) r)).
  { destruct (Hs r Hr) as [(Hy & v & Hv1 & Hpi)|(Hn & Hin)].
    - split; [intros _|tauto]. destruct Hy as (v' & Hv' & Ha). rewrite Hv1 in Hv'. injection Hv' as <-. exists v. rewrite Hurl.
      split; [|split; [exact Ha|exact I]]. rewrite installed_lookup in Hv1 by assumption. unfold visible.
      destruct Hcase as [(_ & ->)|(ls & Hd & Hl)].
      + destruct (Hkeep _ _ Hv1) as [-> | ->]; auto.
      + rewrite Hl. destruct (lookup (filter (new (installed dists)) (flat ls)) (rname r)) as [w|] eqn:El.
        * apply lookup_in, filter_In in El as [El _]. apply flat_in in El as (l & Hl1 & En & Ev). destruct HU as (HU & _).
          destruct (HU _ _ _ _ _ Hd) as (_ & _ & Hc). rewrite <- En in Hpi. rewrite (Hc l v Hl1 Hpi) in Ev. now subst w.
        * destruct (Hkeep _ _ Hv1) as [-> | ->]; auto.
    - split; [tauto|intros _]. destruct Hcase as [(-> & _)|(ls & Hd & Hl)]; [destruct Hin|].
      destruct HU as (HU & _). destruct (HU _ _ _ _ _ Hd) as (Hnn & Hsv & _). specialize (Hsv _ Hin). cbn in Hsv.
      revert Hsv. apply works_mono. intros n v Ha. destruct (flat_all ls (Hidx _ _ _ _ _ Hd)) as (_ & Hal). rewrite Hal in Ha.
      unfold visible. rewrite Hl. destruct (lookup (flat ls) n) as [w|] eqn:Ef.
      + injection Ha as ->. destruct (new (installed dists) (n, v)) eqn:En.
        * rewrite (in_lookup _ n v); [reflexivity|now apply nodup_filter, nodup_flat|]. apply filter_In. split; [now apply lookup_in|exact En].
        * assert (En2 : lookup dists n = Some v).
          { destruct (lookup (installed dists) n) as [w|] eqn:Ew.
            - destruct (version_eq_dec w v) as [->|Hne]; [now rewrite installed_lookup in Ew by assumption|].
              exfalso. assert (En' : new (installed dists) (n, v) = true) by (apply new_spec; congruence). congruence.
            - exfalso. assert (En' : new (installed dists) (n, v) = true) by (apply new_spec; congruence). congruence. }
          destruct (lookup (filter (new (installed dists)) (flat ls)) n) as [w|] eqn:El.
          -- apply lookup_in, filter_In in El as [El _]. apply (in_lookup _ _ _ (nodup_flat _ Hnn)) in El. congruence.
          -- destruct (Hkeep _ _ En2) as [-> | ->]; auto.
      + destruct (lookup (filter (new (installed dists)) (flat ls)) n) as [w|] eqn:El; [|now rewrite Ha].
        apply lookup_in, filter_In in El as [El _]. apply (in_lookup _ _ _ (nodup_flat _ Hnn)) in El. congruence. }
  destruct Hmain as [Hm1 Hm2]. split; [|intros Hn; apply Hm2; now rewrite Hprov].
  destruct (Hs r Hr) as [(Hy & _)|(Hn & _)]; [now apply Hm1|].
  destruct (Hm2 Hn) as (K & HK & Hc). now apply Hc.
Qed.
(** What the system provides is left to the system: *)
Theorem C56_left_to_the_system M U idx dists env specs env' r :
  uv_ok M U -> (forall u, ~ In (Vcs u) specs) -> NoDup (map fst dists) -> rurl r = None ->
  install_packages U idx dists env specs true = Some env' ->
  In (Named r) specs -> meets U (lookup dists) r -> lookup env' (rname r) = lookup env (rname r).
Proof.
  intros HU Hv Hnd Hurl H Hr (v & Hl & Ha & _).
  destruct (skip_run _ _ _ _ _ _ _ HU Hv H) as (todo & pinned & Es & Hcase).
  destruct (split_spec _ _ _ _ _ Es) as (_ & _ & Hs & Hp).
  destruct (Hs r Hr) as [(Hy & w & Hw & Hpi)|(Hn & _)].
  - destruct Hcase as [(_ & ->)|(ls & Hd & He)]; [reflexivity|]. rewrite He.
    destruct (lookup (filter (new (installed dists)) (flat ls)) (rname r)) as [x|] eqn:El; [|reflexivity].
    apply lookup_in, filter_In in El as [El En]. apply new_spec in En. exfalso. apply En. rewrite Hw. f_equal.
    apply flat_in in El as (l & Hl1 & E1 & E2). destruct HU as (HU & _). destruct (HU _ _ _ _ _ Hd) as (_ & _ & Hc).
    rewrite <- E1 in Hpi. rewrite <- (Hc l w Hl1 Hpi). exact E2.
  - exfalso. apply Hn. exists v. rewrite installed_lookup by assumption. auto.
Qed.
(** ... nothing is installed in the version the system has, *)
Theorem C56_installs_only_news M U idx dists env specs env' n :
  uv_ok M U -> (forall u, ~ In (Vcs u) specs) -> NoDup (map fst dists) ->
  install_packages U idx dists env specs true = Some env' ->
  lookup env' n <> lookup env n -> lookup env' n <> lookup dists n.
Proof.
  intros HU Hv Hnd H Hne.
  destruct (skip_run _ _ _ _ _ _ _ HU Hv H) as (todo & pinned & Es & [(_ & ->)|(ls & Hd & He)]); [congruence|].
  rewrite He in Hne |- *. destruct (lookup (filter (new (installed dists)) (flat ls)) n) as [x|] eqn:El; [|congruence].
  apply lookup_in, filter_In in El as [_ En]. apply new_spec in En. rewrite installed_lookup in En by assumption. congruence.
Qed.
(** ... and when the system provides everything, uv is not even asked. *)
Theorem C56_nothing_to_do U idx dists env specs :
  NoDup (map fst dists) -> (forall s, In s specs -> exists r, s = Named r /\ rurl r = None /\ meets U (lookup dists) r) ->
  install_packages U idx dists env specs true = Some env.
Proof.
  intros Hnd H. unfold install_packages, filter_packages. destruct specs as [|s0 specs]; [reflexivity|].
  destruct (split_specs (installed dists) (s0 :: specs)) as [[keep todo] pinned] eqn:Es.
  destruct (split_spec _ _ _ _ _ Es) as (Hk & Ht & _).
  assert (keep = []) as ->.
  { destruct keep as [|u keep]; [reflexivity|]. exfalso. destruct (proj1 (Hk u) (or_introl eq_refl)) as [E|E].
    - subst s0. destruct (H _ (or_introl eq_refl)) as (r & E & _). discriminate.
    - destruct (H _ (or_intror E)) as (r & E' & _). discriminate. }
  assert (todo = []) as ->; [|reflexivity].
  destruct todo as [|t todo]; [reflexivity|]. exfalso. destruct (Ht t (or_introl eq_refl)) as (r & -> & Hi & Hn). apply Hn.
  destruct (H _ Hi) as (r' & E & _ & v & Hl & Ha & _). injection E as <-. exists v. rewrite installed_lookup by assumption. auto.
Qed.

(** ** Concrete cases, and what goes wrong *)
Definition spec_eq_dec (a b : list spec) : {a = b} + {a <> b}.
Proof.
  assert (Hc : forall x y : clause, {x = y} + {x <> y}) by (decide equality; apply Nat.eq_dec).
  assert (Hr : forall x y : req, {x = y} + {x <> y})
    by (decide equality; try apply Nat.eq_dec; try (apply list_eq_dec; (apply Nat.eq_dec || apply Hc)); decide equality; apply Nat.eq_dec).
  apply list_eq_dec. decide equality; (apply Nat.eq_dec || apply Hr).
Defined.
Definition respects (pins : table) (ls : list line) : bool :=
  forallb (fun l => forallb (fun p => negb (fst p =? lname l) || if version_eq_dec (lver l) (snd p) then true else false) pins) ls.
(** A uv that knows one answer: index [i] can serve [specs] with the plan [ls]. *)
Definition knows (i : index) (specs : list spec) (ls : list line) (b : url -> option (name * version)) : uv :=
  mkUv (fun idx _ s pins => if (idx =? i) && (if spec_eq_dec s specs then true else false) && respects pins ls then Some ls else None)
       (fun idx env s => if (idx =? i) && (if spec_eq_dec s specs then true else false) then Some (map (fun l => (lname l, lver l)) ls ++ env) else None)
       b (fun _ _ => true).
Lemma knows_ok M i specs ls b : NoDup (map lname ls) ->
  (forall env s, In s specs -> served M (knows i specs ls b) (after ls env) s) -> uv_ok M (knows i specs ls b).
Proof.
  intros Hn Hs. split.
  - intros idx env s pins ls'. cbn. destruct (idx =? i); [|discriminate]. destruct (spec_eq_dec s specs) as [->|]; [|discriminate]. cbn.
    destruct (respects pins ls) eqn:Er; [|discriminate]. intros E. injection E as <-. split; [exact Hn|]. split; [apply Hs|].
    intros l v Hl Hp. unfold respects in Er. rewrite forallb_forall in Er. specialize (Er l Hl). rewrite forallb_forall in Er.
    specialize (Er _ Hp). cbn in Er. rewrite Nat.eqb_refl in Er. cbn in Er. destruct (version_eq_dec (lver l) v); congruence.
  - intros idx env s env'. cbn. destruct (idx =? i); [|discriminate]. destruct (spec_eq_dec s specs) as [->|]; [|discriminate]. cbn.
    intros E. injection E as <-. intros x Hx. apply (served_mono _ _ (after ls env)); [|now apply Hs].
    intros n v. clear. induction ls as [|l ls IH]; cbn; [auto|]. destruct (lname l =? n); auto.
Qed.
Lemma knows_index i specs ls b : (forall l, In l ls -> lfrom l = None) -> from_index_only (knows i specs ls b).
Proof.
  intros Hl idx env s pins ls' H. cbn [dry knows] in H. destruct (_ && _ && _); [|discriminate]. injection H as <-. exact Hl.
Qed.
Definition bare (n : name) : req := mkReq n [] [] None.
Definition no_needs : meta := mkMeta (fun _ _ => []) (fun _ _ _ => []).
Definition no_build : url -> option (name * version) := fun _ => None.
(** A requirement without needs works when it is met *)
Lemma works_alone M U vis r : meets U vis r -> (forall v d, ~ needs M r v d) -> works M U vis r.
Proof.
  intros Hm Hn. exists (fun k => k = r). split; [reflexivity|]. intros k ->. split; [exact Hm|]. intros v d _ H. now apply Hn in H.
Qed.
Lemma alone_none r v d : ~ needs no_needs r v d.
Proof. intros [[]|(e & _ & [])]. Qed.

Module Demo.
  (** Package 0 depends on package 1, which the system has. *)
  Definition M0 : meta := mkMeta (fun n _ => if n =? 0 then [bare 1] else []) (fun _ _ _ => []).
  Definition want : req := mkReq 0 [] [Ge 3] None.
  Definition U0 := knows 0 [Named want] [mkLine 0 (Good 4) None; mkLine 1 (Good 1) None] no_build.
  Lemma U0_ok : uv_ok M0 U0.
  Proof.
    apply knows_ok.
    - constructor; [cbn; intros [H|[]]; discriminate|constructor; [intros []|constructor]].
    - intros env s [<-|[]]. exists (fun k => k = want \/ k = bare 1). split; [now left|]. intros k [-> | ->].
      + split; [exists (Good 4); split; [reflexivity|]; split; [|exact I]; right; exists 4; split; [reflexivity|]; intros c [<-|[]]; cbn; lia|].
        intros v d _ [H|(e & [] & _)]. destruct H as [<-|[]]. now right.
      + split; [exists (Good 1); split; [reflexivity|]; split; [now left|exact I]|]. intros v d _ [[]|(e & [] & _)].
  Qed.
  Example installs_one : install_packages U0 0 [(1, Good 1)] [] [Named want; Named (bare 1)] true = Some [(0, Good 4)].
  Proof. reflexivity. Qed.
  Example served_both : works M0 U0 (visible [(0, Good 4)] [(1, Good 1)]) want /\ meets U0 (visible [(0, Good 4)] [(1, Good 1)]) (bare 1).
  Proof.
    assert (H : forall r, In (Named r) [Named want; Named (bare 1)] -> meets U0 (visible [(0, Good 4)] [(1, Good 1)]) r /\
      (~ meets U0 (lookup [(1, Good 1)]) r -> works M0 U0 (visible [(0, Good 4)] [(1, Good 1)]) r)).
    { eapply C56_skip_installed_partial; [apply U0_ok| | | | |exact installs_one].
      - apply knows_index. intros l [<-|[<-|[]]]; reflexivity.
      - intros s [<-|[<-|[]]]; eexists; split; reflexivity.
      - constructor; [intros []|constructor].
      - intros n (v & w & H & _). discriminate. }
    split.
    - apply H; [now left|]. intros (v & E & _). discriminate E.
    - apply H. right. now left.
  Qed.
  Example up_to_date : install_packages (mkUv (fun _ _ _ _ => None) (fun _ _ _ => None) no_build (fun _ _ => false)) 0
    [(0, Good 4)] [] [Named want] true = Some [].
  Proof.
    apply C56_nothing_to_do; [constructor; [intros []|constructor]|]. intros s [<-|[]]. exists want. split; [reflexivity|]. split; [reflexivity|].
    exists (Good 4). split; [reflexivity|]. split; [|exact I]. right. exists 4. split; [reflexivity|]. intros c [<-|[]]. cbn. lia.
  Qed.
End Demo.

(** The system has version 2; version 1 is installed into the environment for one
    request, and a later request for version 2 is skipped: version 1 stays. *)
Theorem C56_shadowed_refuted : ~ (forall M U idx dists specs1 specs2 env1 env2,
  uv_ok M U -> from_index_only U -> plain_names specs1 -> plain_names specs2 -> NoDup (map fst dists) ->
  install_packages U idx dists [] specs1 true = Some env1 ->
  install_packages U idx dists env1 specs2 true = Some env2 ->
  forall r, In (Named r) specs2 -> meets U (visible env2 dists) r).
Proof.
  intros H. set (old := mkReq 0 [] [Lt 2] None). set (young := mkReq 0 [] [Ge 2] None).
  set (U := knows 0 [Named old] [mkLine 0 (Good 1) None] no_build).
  assert (HU : uv_ok no_needs U).
  { apply knows_ok; [constructor; [intros []|constructor]|]. intros env s [<-|[]]. apply works_alone; [|intros v d; apply alone_none].
    exists (Good 1). split; [reflexivity|]. split; [|exact I]. right. exists 1. split; [reflexivity|]. intros c [<-|[]]. cbn. lia. }
  assert (Hi : from_index_only U).
  { apply knows_index. intros l [<-|[]]. reflexivity. }
  destruct (H no_needs U 0 [(0, Good 2)] [Named old] [Named young] [(0, Good 1)] [(0, Good 1)] HU Hi) with (r := young) as (v & Ev & Ha & _).
  - intros s [<-|[]]. exists old. auto.
  - intros s [<-|[]]. exists young. auto.
  - constructor; [intros []|constructor].
  - reflexivity.
  - reflexivity.
  - now left.
  - cbn in Ev. injection Ev as <-. destruct Ha as [Ha|(n & En & Hc)]; [discriminate|]. injection En as <-.
    specialize (Hc (Ge 2) (or_introl eq_refl)). cbn in Hc. lia.
Qed.
(** [package[extra]]: when the system has the package, the extra is not looked at. *)
Theorem C56_extras_refuted : ~ (forall M U idx dists specs env',
  uv_ok M U -> from_index_only U -> plain_names specs -> NoDup (map fst dists) ->
  install_packages U idx dists [] specs true = Some env' ->
  forall r, In (Named r) specs -> works M U (visible env' dists) r).
Proof.
  intros H. set (M := mkMeta (fun _ _ => []) (fun _ _ e => if e =? 5 then [bare 1] else [])).
  set (r := mkReq 0 [5] [] None). set (U := mkUv (fun _ _ _ _ => None) (fun _ _ _ => None) no_build (fun _ _ => false)).
  destruct (H M U 0 [(0, Good 1)] [Named r] []) with (r := r) as (K & HK & Hc).
  - split; discriminate.
  - discriminate.
  - intros s [<-|[]]. exists r. auto.
  - constructor; [intros []|constructor].
  - reflexivity.
  - now left.
  - destruct (Hc r HK) as (_ & Hd). specialize (Hd (Good 1) (bare 1) eq_refl).
    assert (Hk : K (bare 1)) by (apply Hd; right; exists 5; split; now left).
    destruct (Hc _ Hk) as ((v & E & _) & _). discriminate E.
Qed.
(** A new version of a dependency is installed over the one that a package of the
    system, itself required, depends on. *)
Theorem C56_broken_dependency_refuted : ~ (forall M U idx dists specs env',
  uv_ok M U -> from_index_only U -> plain_names specs -> NoDup (map fst dists) ->
  install_packages U idx dists [] specs true = Some env' ->
  forall r, In (Named r) specs -> extras r = [] -> works M U (lookup dists) r -> works M U (visible env' dists) r).
Proof.
  intros H. set (M := mkMeta (fun n _ => if n =? 0 then [mkReq 1 [] [Lt 2] None] else []) (fun _ _ _ => [])).
  set (young := mkReq 1 [] [Ge 2] None). set (U := knows 0 [Named young] [mkLine 1 (Good 2) None] no_build).
  assert (HU : uv_ok M U).
  { apply knows_ok; [constructor; [intros []|constructor]|]. intros env s [<-|[]]. apply works_alone.
    - exists (Good 2). split; [reflexivity|]. split; [|exact I]. right. exists 2. split; [reflexivity|]. intros c [<-|[]]. cbn. lia.
    - intros v d [[]|(e & [] & _)]. }
  assert (Hi : from_index_only U).
  { apply knows_index. intros l [<-|[]]. reflexivity. }
  destruct (H M U 0 [(0, Good 1); (1, Good 1)] [Named (bare 0); Named young] [(1, Good 2)] HU Hi) with (r := bare 0) as (K & HK & Hc).
  - intros s [<-|[<-|[]]]; eexists; split; reflexivity.
  - constructor; [cbn; intros [E|[]]; discriminate|constructor; [intros []|constructor]].
  - reflexivity.
  - now left.
  - reflexivity.
  - exists (fun k => k = bare 0 \/ k = mkReq 1 [] [Lt 2] None). split; [now left|]. intros k [-> | ->].
    + split; [exists (Good 1); split; [reflexivity|]; split; [now left|exact I]|].
      intros v d _ [E|(e & [] & _)]. cbn in E. destruct E as [<-|[]]. now right.
    + split; [exists (Good 1); split; [reflexivity|]; split; [|exact I]; right; exists 1; split; [reflexivity|]; intros c [<-|[]]; cbn; lia|].
      intros v d _ [[]|(e & [] & _)].
  - destruct (Hc _ HK) as (_ & Hd). assert (Hk : K (mkReq 1 [] [Lt 2] None)) by (apply (Hd (Good 1)); [reflexivity|left; now left]).
    destruct (Hc _ Hk) as ((v & E & Ha & _) & _). cbn in E. injection E as <-.
    destruct Ha as [Ha|(n & En & Hm)]; [discriminate|]. injection En as <-. specialize (Hm (Lt 2) (or_introl eq_refl)). cbn in Hm. lia.
Qed.
(** [git+https://...]: installed without its dependencies. *)
Theorem C56_vcs_refuted : ~ (forall M U idx dists u env',
  uv_ok M U -> NoDup (map fst dists) -> install_packages U idx dists [] [Vcs u] true = Some env' ->
  served M U (visible env' dists) (Vcs u)).
Proof.
  intros H. set (M := mkMeta (fun n _ => if n =? 0 then [bare 1] else []) (fun _ _ _ => [])).
  set (U := mkUv (fun _ _ _ _ => None) (fun _ _ _ => None) (fun u => if u =? 9 then Some (0, Good 1) else None) (fun _ _ => true)).
  destruct (H M U 0 [] 9 [(0, Good 1)]) as (n & v & E & K & HK & Hc).
  - split; discriminate.
  - constructor.
  - reflexivity.
  - cbn in E. injection E as <- <-. destruct (Hc _ HK) as (_ & Hd).
    assert (Hk : K (bare 1)) by (apply (Hd (Good 1)); [reflexivity|left; now left]).
    destruct (Hc _ Hk) as ((v & E & _) & _). discriminate E.
Qed.
(** [package @ url]: not installed at all, and no error. *)
Theorem C56_url_refuted : ~ (forall M U idx dists r env',
  uv_ok M U -> NoDup (map fst dists) -> install_packages U idx dists [] [Named r] true = Some env' ->
  meets U (visible env' dists) r).
Proof.
  intros H. set (r := mkReq 0 [] [] (Some 9)).
  set (U := knows 0 [Named r] [mkLine 0 (Good 1) (Some 9)] (fun u => if u =? 9 then Some (0, Good 1) else None)).
  assert (HU : uv_ok no_needs U).
  { apply knows_ok; [constructor; [intros []|constructor]|]. intros env s [<-|[]]. apply works_alone; [|intros v d; apply alone_none].
    exists (Good 1). split; [reflexivity|]. split; [now left|reflexivity]. }
  destruct (H no_needs U 0 [] r [] HU) as (v & E & _); [constructor|reflexivity|discriminate E].
Qed.
(** Two copies of a package on the path: the code looks at the last one, Python
    imports the first one. *)
Theorem C56_two_copies_refuted : ~ (forall M U idx dists specs env',
  uv_ok M U -> from_index_only U -> plain_names specs -> install_packages U idx dists [] specs true = Some env' ->
  forall r, In (Named r) specs -> meets U (visible env' dists) r).
Proof.
  intros H. set (young := mkReq 0 [] [Ge 2] None). set (U := mkUv (fun _ _ _ _ => None) (fun _ _ _ => None) no_build (fun _ _ => false)).
  destruct (H no_needs U 0 [(0, Good 1); (0, Good 2)] [Named young] []) with (r := young) as (v & Ev & Ha & _).
  - split; discriminate.
  - discriminate.
  - intros s [<-|[]]. exists young. auto.
  - reflexivity.
  - now left.
  - cbn in Ev. injection Ev as <-. destruct Ha as [Ha|(n & En & Hc)]; [discriminate|]. injection En as <-.
    specialize (Hc (Ge 2) (or_introl eq_refl)). cbn in Hc. lia.
Qed.
(** The dry run ignores [index_url]: what a plain installation finds, the skipping
    one does not. *)
Theorem C56_index_refuted : ~ (forall M U idx dists specs env',
  uv_ok M U -> from_index_only U -> plain_names specs -> NoDup (map fst dists) ->
  install_packages U idx dists [] specs false = Some env' ->
  exists env'', install_packages U idx dists [] specs true = Some env'').
Proof.
  intros H. set (U := knows 5 [Named (bare 0)] [mkLine 0 (Good 1) None] no_build).
  assert (HU : uv_ok no_needs U).
  { apply knows_ok; [constructor; [intros []|constructor]|]. intros env s [<-|[]]. apply works_alone; [|intros v d; apply alone_none].
    exists (Good 1). split; [reflexivity|]. split; [now left|exact I]. }
  assert (Hi : from_index_only U).
  { apply knows_index. intros l [<-|[]]. reflexivity. }
  destruct (H no_needs U 5 [] [Named (bare 0)] [(0, Good 1)] HU Hi) as (env'' & E).
  - intros s [<-|[]]. exists (bare 0). auto.
  - constructor.
  - reflexivity.
  - discriminate E.
Qed.
Theorem C56_requirements_met_refuted : ~ claim.
Proof.
  intros H. apply C56_vcs_refuted. intros M U idx dists u env' HU _ Hi.
  exact (H M U idx dists [] [Vcs u] true env' HU Hi (Vcs u) (or_introl eq_refl)).
Qed.

Print Assumptions C56_plain.
Print Assumptions C56_skip_installed_partial.
Print Assumptions C56_left_to_the_system.
Print Assumptions C56_installs_only_news.
Print Assumptions C56_nothing_to_do.
Print Assumptions C56_shadowed_refuted.
Print Assumptions C56_extras_refuted.
Print Assumptions C56_broken_dependency_refuted.
Print Assumptions C56_vcs_refuted.
Print Assumptions C56_url_refuted.
Print Assumptions C56_two_copies_refuted.
Print Assumptions C56_index_refuted.
Print Assumptions C56_requirements_met_refuted.
