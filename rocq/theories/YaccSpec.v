(** What a context-free grammar with semantic actions means, apart from any parser. *)
From Coq Require Import List NArith.
From Verif Require Import YaccModel.
Import ListNotations.

Section S.
Variable ps : list prod.
Variable V W : Type.
Variable sem : N -> list V -> list V -> W -> option (V * W).

Inductive tree := Leaf (t : N) (v : V) | Node (p : N) (l : list tree).

(** [tree_of x t u]: t is a derivation tree of the text u from the symbol x. *)
Inductive tree_of : sym -> tree -> list (N * V) -> Prop :=
| to_leaf t v : tree_of (T t) (Leaf t v) [(t, v)]
| to_node p r l u : nth_error ps (N.to_nat p) = Some r -> trees_of (rhs r) l u -> tree_of (NT (lhs r)) (Node p l) u
with trees_of : list sym -> list tree -> list (N * V) -> Prop :=
| ts_nil : trees_of [] [] []
| ts_cons x xs t l u1 u2 : tree_of x t u1 -> trees_of xs l u2 -> trees_of (x :: xs) (t :: l) (u1 ++ u2).

(** The actions of a tree, from left to right, those of the parts before that of the whole.
    [b]: the values of what stands to the left, the nearest first. *)
Inductive does : list V -> tree -> W -> V -> W -> Prop :=
| do_leaf b t v w : does b (Leaf t v) w v w
| do_node b p l w vs w1 v w2 : do_all b l w vs w1 -> sem p vs b w1 = Some (v, w2) -> does b (Node p l) w v w2
with do_all : list V -> list tree -> W -> list V -> W -> Prop :=
| da_nil b w : do_all b [] w [] w
| da_cons b t l w v w1 vs w2 : does b t w v w1 -> do_all (v :: b) l w1 vs w2 -> do_all b (t :: l) w (v :: vs) w2.

(** The start symbol. *)
Definition start_symbol : sym := match ps with r :: _ => hd (T 0) (rhs r) | [] => T 0%N end.

Definition sentence (u : list (N * V)) : Prop := exists t, tree_of start_symbol t u.
End S.
Arguments Leaf {V}. Arguments Node {V}.
Scheme tree_of_mind := Induction for tree_of Sort Prop with trees_of_mind := Induction for trees_of Sort Prop.
