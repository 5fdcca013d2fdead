(** What to expect of a generated parser, in terms of the grammar only. *)
From Coq Require Import List Bool PeanoNat.
From Verif Require Import GrammarModel GrammarSpec.
Import ListNotations.

(** The [k] tokens from position [i] on. *)
Definition slice (tok : nat -> id) (i k : nat) : list id := map tok (seq i k).
(** A stream that delivers [w] and then nothing but the end. *)
Definition stream (g : grammar) (w : list id) : nat -> id := fun i => nth i w (geof g).

Section S.
Variable g : grammar.
Notation kind := (kind g).

(** Operators are declared as a rule of their own, not inside others: the
    syntax allows nothing else (parser.yy 545-617), but for [inline]. *)
Definition operators_on_top : Prop :=
  (forall n m b ops x, child g n m -> kind m = NOper b ops x -> exists s, kind n = NEvolve m s) /\
  (forall n s e i b ops x, kind n = NInl s -> In e (grules g) -> kind e = NEvolve i s -> kind i <> NOper b ops x) /\
  (forall m b ops x, kind m = NOper b ops x -> exists e s, In e (grules g) /\ kind e = NEvolve m s).
(** A parenthesised operand is read as the symbol of the rule. *)
Definition operators_alone : Prop :=
  forall e i s b ops x w, In e (grules g) -> kind e = NEvolve i s -> kind i = NOper b ops x -> derives g s w -> derives g i w.
(** Errors are not passed over. *)
Definition no_recovery : Prop := forall n t, kind n <> NTry t None.
(** What is inlined can be left out. *)
Definition inlined_can_be_empty : Prop := forall n s, kind n = NInl s -> derives g s [].
(** The end of input is not one of the declared tokens. *)
Definition end_not_written : Prop := ~ In (geof g) (gterms g).
(** The operands of nested alternatives, in the written order. *)
Inductive operands : id -> list id -> Prop :=
| op_one n : (forall l r, kind n <> NAlt l r) -> operands n [n]
| op_alt n l r a b : kind n = NAlt l r -> operands l a -> operands r b -> operands n (a ++ b).
End S.
