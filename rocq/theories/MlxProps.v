(** * C79: MLX arrays keep their content over the wire

    How to read.  [kept attr a]: what was made of [a] arrives with its shape, dtype and items.  [mlx]: the dtypes that are
    attributes of mlx.core.  Proved: an array of any shape and strides is kept if its dtype's name is an attribute of
    the module (C79_kept_partial), and only then (C79_name_needed); so arrays of all dtypes but bool are
    (C79_all_but_bool_partial); an array is never misread: what is accepted has the sender's shape and dtype, and a buffer of
    another format is refused (C79_never_misread).  False for bool, whose attribute is called bool_ (C79_bool_refuted). *)
From Coq Require Import List ZArith Bool String Lia.
From Verif Require Import NdModel NdProps MlxModel.
Import ListNotations.
Open Scope Z_scope.

(** ** Specification *)
Definition same_array (b a : marray) : Prop :=
  shape (arr b) = shape (arr a) /\ dtype b = dtype a /\ itemsize (arr b) = itemsize (arr a) /\
  forall idx, is_index idx (shape (arr a)) -> item (arr b) idx = item (arr a) idx.
Definition kept (attr : string -> option (string * nat)) (a : marray) : Prop :=
  exists b, deserial attr (fst (MlxModel.serial a)) "B" (snd (MlxModel.serial a)) = Some b /\ same_array b a.

(** ** Theorems *)
Lemma count_product sh : count sh = product sh.
Proof. induction sh; cbn; auto. Qed.
Lemma copy_items a idx : wf a -> is_index idx (shape a) ->
  bytes (buffer (ravel a OrderC)) (0 + dot idx (fst (fresh_strides (Z.of_nat (itemsize a)) (shape a)))) (itemsize a) = item a idx.
Proof.
  intros W I. destruct (shape a) as [|d sh] eqn:E.
  - inversion I; subst. replace (fst (fresh_strides (Z.of_nat (itemsize a)) [])) with (strides a).
    + apply sent_c; [apply W| |rewrite E; constructor]. destruct W as [W _]. unfold c_contiguous. rewrite E in *. now destruct (strides a).
    + destruct W as [W _]. rewrite E in W. cbn in *. now destruct (strides a).
  - assert (N : shape a <> []) by (rewrite E; discriminate). rewrite <- E in I. rewrite <- (contiguous_copy a idx W I N). unfold item, ascontiguousarray. cbn [mem base strides itemsize]. now rewrite E.
Qed.
Theorem C79_kept_partial : forall attr a, wf (arr a) -> attr (dtype a) = Some (dtype a, itemsize (arr a)) -> kept attr a.
Proof.
  intros attr a W A. unfold kept, MlxModel.serial, deserial. cbn [fst snd mh_format mh_dtype mh_shape]. rewrite String.eqb_refl. cbn [negb]. rewrite A.
  rewrite count_product, ravel_len, Nat.eqb_refl. eexists. split; [reflexivity|]. repeat split. intros idx I. unfold item at 1. cbn [arr mem base strides itemsize]. now apply copy_items.
Qed.
Theorem C79_name_needed : forall attr a, kept attr a -> attr (dtype a) = Some (dtype a, itemsize (arr a)).
Proof.
  intros attr a (b & D & _ & S & Z & _). unfold deserial in D. cbn [fst snd MlxModel.serial mh_format mh_dtype mh_shape] in D. rewrite String.eqb_refl in D. cbn [negb] in D.
  destruct (attr (dtype a)) as [[n s]|]; [|discriminate]. destruct (Nat.eqb _ _) in D; [|discriminate]. injection D as <-. cbn in S, Z. congruence.
Qed.
(** The arrays of MLX: their dtype is one of MLX's, with its size. *)
Definition of_mlx (a : marray) : Prop := wf (arr a) /\ In (dtype a, itemsize (arr a)) dtypes.
Theorem C79_all_but_bool_partial : forall a, of_mlx a -> dtype a <> "bool"%string -> kept mlx a.
Proof.
  intros a [W I] N. apply C79_kept_partial; auto. destruct a as [ar d]. cbn [arr dtype] in *.
  repeat (destruct I as [I|I]; [injection I as <- <-; try reflexivity; now destruct N|]). destruct I.
Qed.
Definition C79_claim : Prop := forall a, of_mlx a -> kept mlx a.
Theorem C79_bool_refuted : ~ C79_claim.
Proof.
  intros C. specialize (C (mkA {| mem := fun _ => 1; base := 0; shape := [2%nat]; strides := [1]; itemsize := 1 |} "bool")).
  assert (O : of_mlx (mkA {| mem := fun _ => 1; base := 0; shape := [2%nat]; strides := [1]; itemsize := 1 |} "bool")) by (split; [split; [reflexivity|cbn; lia]|now left]).
  apply C in O. apply C79_name_needed in O. discriminate O.
Qed.
(** What is accepted has the shape that was sent and the dtype that the module has under the name that was sent; a buffer of another format, or of another size, is refused. *)
Theorem C79_never_misread : forall attr a format bs b, deserial attr (fst (MlxModel.serial a)) format bs = Some b ->
  format = "B"%string /\ shape (arr b) = shape (arr a) /\ attr (dtype a) = Some (dtype b, itemsize (arr b)) /\ List.length bs = (product (shape (arr a)) * itemsize (arr b))%nat.
Proof.
  intros attr a f bs b D. unfold deserial in D. cbn [fst MlxModel.serial mh_format mh_dtype mh_shape] in D. destruct (String.eqb_spec f "B"); [|discriminate]. cbn [negb] in D.
  destruct (attr (dtype a)) as [[n s]|]; [|discriminate]. destruct (Nat.eqb_spec (List.length bs) (count (shape (arr a)) * s)); [|discriminate]. injection D as <-. cbn. rewrite <- count_product. auto.
Qed.

Module Demo.
(** A transposed array of 16-bit integers (strides 2 and 6 over 12 bytes). *)
Definition a : marray := mkA {| mem := fun k => k; base := 100; shape := [3%nat; 2%nat]; strides := [2; 6]; itemsize := 2 |} "int16".
Example demo : of_mlx a /\ dtype a <> "bool"%string.
Proof. split; [split; [split; [reflexivity|cbn; lia]|cbn; tauto]|discriminate]. Qed.
Example demo_bytes : snd (MlxModel.serial a) = [100; 101; 106; 107; 102; 103; 108; 109; 104; 105; 110; 111].
Proof. reflexivity. Qed.
Example demo_back : option_map (fun b => (item (arr b) [1%nat; 1%nat], item (arr a) [1%nat; 1%nat])) (deserial mlx (fst (MlxModel.serial a)) "B" (snd (MlxModel.serial a))) = Some ([108; 109], [108; 109]).
Proof. vm_compute. reflexivity. Qed.
End Demo.

Print Assumptions C79_kept_partial.
Print Assumptions C79_name_needed.
Print Assumptions C79_all_but_bool_partial.
Print Assumptions C79_bool_refuted.
Print Assumptions C79_never_misread.
