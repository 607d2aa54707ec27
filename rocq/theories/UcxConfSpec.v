(** * UcxConfSpec: which UCX settings the documentation promises

    Written from the comments of python/xoscar/backends/communication/ucx.py (68-70,
    78-80, 97, 128-132) only.  It uses the model's record of settings, nothing else. *)
From Coq Require Import List Ascii String.
From Verif Require Import PyStr UcxConfModel.
Import ListNotations.
Open Scope list_scope.

(** The value of the last entry of [d] whose name satisfies [P]. *)
Definition last_entry (P : text -> Prop) (d : list (text * text)) (v : text) : Prop :=
  exists a k b, d = a ++ (k, v) :: b /\ P k /\ forall k' v', In (k', v') b -> ~ P k'.
Definition no_entry (P : text -> Prop) (d : list (text * text)) : Prop := forall k v, In (k, v) d -> ~ P k.

(** Line 97: "some-name" is translated to "UCX_SOME_NAME". *)
Definition spelled (c d : ascii) : Prop :=
  (c = "-"%char /\ d = "_"%char)
  \/ (exists i, i < 26 /\ c = ascii_of_nat (97 + i) /\ d = ascii_of_nat (65 + i))
  \/ (c <> "-"%char /\ ~ (exists i, i < 26 /\ c = ascii_of_nat (97 + i)) /\ d = c).
Definition names (k x : text) : Prop := Forall2 spelled k x.

(** Variable UCX_x of the process environment. *)
Definition variable (x k : text) : Prop := k = lit "UCX_" ++ x.

(** Lines 68-91: the flags choose the transports. *)
Definition transports (c : conf) : list text :=
  (if infiniband c then [lit "ib"] else []) ++ [lit "tcp"]
  ++ (if nvlink c then [lit "cuda_copy"] else if cuda_copy c then [lit "cuda_copy"] else [])
  ++ (if nvlink c then [lit "cuda_ipc"] else []).
Definition flagged (c : conf) : Prop := tcp c = true \/ nvlink c = true \/ infiniband c = true.
Inductive by_flags (c : conf) : text -> text -> Prop :=
| flags_transports : flagged c -> by_flags c (lit "TLS") (join (lit ",") (transports c))
| flags_priority : flagged c -> by_flags c (lit "SOCKADDR_TLS_PRIORITY") (if rdmacm c then lit "rdmacm" else lit "tcp").

(** Lines 128-132: the process environment first, then the flags, then the entries of
    "environment". *)
Inductive documented (c : conf) (env : list (text * text)) (x : text) : text -> Prop :=
| from_environment v : last_entry (variable x) env v -> documented c env x v
| from_flags v : no_entry (variable x) env -> by_flags c x v -> documented c env x v
| from_entries v : no_entry (variable x) env -> (forall w, ~ by_flags c x w) ->
    last_entry (fun k => names k x) (environment c) v -> documented c env x v.

(** The setting that UCX works with, when [ucp.init] was given [h]: an option that is
    passed to it, else the variable of the process environment. *)
Inductive ucx_uses (h : handed) (x : text) : text -> Prop :=
| by_option v : last_entry (eq x) (h_options h) v -> ucx_uses h x v
| by_variable v : no_entry (eq x) (h_options h) -> last_entry (variable x) (h_process h) v -> ucx_uses h x v.

Definition mentions (p s : text) : Prop := exists a b, s = a ++ p ++ b.
(** Lines 127-139: these settings need a CUDA context. *)
Definition needs_cuda (c : conf) (env : list (text * text)) : Prop :=
  create_cuda_contex c = true
  \/ exists v, documented c env (lit "TLS") v /\ mentions (lit "cuda") v /\ ~ mentions (lit "^cuda") v.
