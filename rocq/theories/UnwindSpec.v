(** Specification for C69: what loading a tree of components means, component by component. *)
From Coq Require Import List Arith.
From Verif Require Import UnwindModel.
Import ListNotations.

Section Unwind.
  Variables Hd V E B Ctx : Type.
  Variable leaf : Ctx -> Hd -> list B -> (V + E) * Ctx.
  Variable node : Ctx -> Hd -> list V -> (V + E) * Ctx.
  Variable on_error : Hd -> nat -> E -> option E.
  Variable buffers : list B.
  Notation tree := (tree Hd).

  (** Components are loaded in order, each with its share of the buffers; the first
      exception ends it, every enclosing component may replace it. *)
  Inductive loads : Ctx -> nat -> tree -> V + E -> Ctx -> nat -> Prop :=
  | loads_leaf c p hd n v c' : leaf c hd (firstn n (skipn p buffers)) = (inl v, c') ->
      loads c p (Leaf hd n) (inl v) c' (p + n)
  | loads_leaf_fails c p hd n e c' : leaf c hd (firstn n (skipn p buffers)) = (inr e, c') ->
      loads c p (Leaf hd n) (inr e) c' p
  | loads_node c p hd s ss vs c' p' r c'' : loads_all c p (s :: ss) vs c' p' -> node c' hd vs = (r, c'') ->
      loads c p (Node hd s ss) r c'' p'
  | loads_node_fails c p hd s ss i e c' p' : fails_at c p (s :: ss) i e c' p' ->
      loads c p (Node hd s ss) (inr (match on_error hd i e with Some e' => e' | None => e end)) c' p'
  with loads_all : Ctx -> nat -> list tree -> list V -> Ctx -> nat -> Prop :=
  | all_nil c p : loads_all c p [] [] c p
  | all_cons c p t v c' p' ts vs c'' p'' : loads c p t (inl v) c' p' -> loads_all c' p' ts vs c'' p'' ->
      loads_all c p (t :: ts) (v :: vs) c'' p''
  with fails_at : Ctx -> nat -> list tree -> nat -> E -> Ctx -> nat -> Prop :=
  | fails_here c p t e c' p' ts : loads c p t (inr e) c' p' -> fails_at c p (t :: ts) 0 e c' p'
  | fails_later c p t v c' p' ts i e c'' p'' : loads c p t (inl v) c' p' -> fails_at c' p' ts i e c'' p'' ->
      fails_at c p (t :: ts) (S i) e c'' p''.
End Unwind.
