(** What the theorems about serialization are stated with: object graphs as the user
    sees them.  Nothing here refers to the serializer. *)
From Coq Require Import List Arith Bool Relations.
From Verif Require Import SerModel.
Import ListNotations.

Section S.
  Variables P C : Type.
  Notation heap := (heap P C).
  Notation val := (val P).

  (** *** Trees of data

      A value that contains no cycle denotes a finite tree; [==] of Python compares
      these trees. *)
  Inductive data := Prim (p : P) | Leaf (c : C) | Node (k : kind) (xs : list data).

  Fixpoint denotes (h : heap) (v : val) (x : data) {struct x} : Prop :=
    match x with
    | Prim p => v = VP p
    | Leaf c => exists a, v = VR a /\ nth_error h a = Some (OLeaf c)
    | Node k xs => exists a vs, v = VR a /\ nth_error h a = Some (ONode k vs) /\
        (fix all (vs : list val) (xs : list data) {struct xs} : Prop :=
           match vs, xs with
           | [], [] => True
           | v :: vs', x :: xs' => denotes h v x /\ all vs' xs'
           | _, _ => False
           end) vs xs
    end.

  (** *** Positions

      [follow h v p]: what is found when going from [v] through the slots [p],
      as in x[3]["a"][0]. *)
  Fixpoint follow (h : heap) (v : val) (p : list nat) : option val :=
    match p with
    | [] => Some v
    | i :: p' =>
        match v with
        | VP _ => None
        | VR a =>
            match nth_error h a with
            | Some (ONode _ vs) =>
                match nth_error vs i with Some v' => follow h v' p' | None => None end
            | _ => None
            end
        end
    end.
  (** The object at a position without its items: a primitive, a leaf, or a
      container of some class and size. *)
  Inductive sight := SPrim (p : P) | SLeaf (c : C) | SCont (k : kind) (n : nat).
  Definition look (h : heap) (v : val) (p : list nat) : option sight :=
    match follow h v p with
    | Some (VP q) => Some (SPrim q)
    | Some (VR a) =>
        match nth_error h a with
        | Some (OLeaf c) => Some (SLeaf c)
        | Some (ONode k vs) => Some (SCont k (length vs))
        | None => None
        end
    | None => None
    end.
  (** The two positions hold one object: [x[..p..] is x[..q..]]. *)
  Definition same (h : heap) (v : val) (p q : list nat) : Prop :=
    exists a, follow h v p = Some (VR a) /\ follow h v q = Some (VR a).

  (** *** Conditions on graphs *)
  Section Graph.
  Variable h : heap.
  Variable root : nat.

  Definition slot (a i : nat) (v : val) : Prop :=
    exists k vs, nth_error h a = Some (ONode k vs) /\ nth_error vs i = Some v.
  Definition edge (a b : nat) : Prop := exists i, slot a i (VR b).
  Definition reach : nat -> nat -> Prop := clos_trans nat edge.
  Definition from (a : nat) : Prop := a = root \/ reach root a.
  (** A plain dictionary without items. *)
  Definition empty (a : nat) : Prop := nth_error h a = Some (ONode (KDict 0) []).

  (** Simple paths from the root, last node first. *)
  Inductive trail : list nat -> Prop :=
  | trail_root : trail [root]
  | trail_step : forall a l b, trail (a :: l) -> edge a b -> ~ In b (a :: l) -> trail (b :: a :: l).

  (** Slots that cannot be filled in after the object was made: the items of a
      tuple and the keys of a dictionary. *)
  Definition frozen (k : kind) (n i : nat) : Prop :=
    match k with KTuple _ => True | KList _ => False | KDict _ => i < Nat.div2 n end.

  (** Every reference leads to an object. *)
  Definition closed : Prop := root < length h /\ forall a b, from a -> edge a b -> b < length h.
  (** On no simple path does the last object refer back to the path through a tuple
      item or dictionary key. *)
  Definition frozen_ok : Prop := forall a l k vs i b, trail (a :: l) -> nth_error h a = Some (ONode k vs) ->
    nth_error vs i = Some (VR b) -> frozen k (length vs) i -> ~ In b (a :: l).
  Definition acyclic : Prop := forall a, from a -> ~ reach a a.
  (** No empty dictionary is held by two slots. *)
  Definition once : Prop := forall e a i b j, empty e -> from a -> from b ->
    slot a i (VR e) -> slot b j (VR e) -> a = b /\ i = j.
  End Graph.

  (** *** What deserialize leaves behind, as a heap; [None] if a Placeholder is
      still in it. *)
  Definition clean_val (w : dval P) : option val :=
    match w with DP p => Some (VP p) | DR a => Some (VR a) | DPh _ => None end.
  Fixpoint all_some {X Y} (f : X -> option Y) (l : list X) : option (list Y) :=
    match l with
    | [] => Some []
    | x :: l' => match f x, all_some f l' with Some y, Some ys => Some (y :: ys) | _, _ => None end
    end.
  Definition clean_obj (o : dobj P C) : option (obj P C) :=
    match o with
    | DLeaf c => Some (OLeaf c)
    | DNode k ws => option_map (ONode k) (all_some clean_val ws)
    end.
  Definition clean_heap (h : list (dobj P C)) : option heap := all_some clean_obj h.
End S.
Arguments Prim {P C} p. Arguments Leaf {P C} c. Arguments Node {P C} k xs.
Arguments SPrim {P C} p. Arguments SLeaf {P C} c. Arguments SCont {P C} k n.
