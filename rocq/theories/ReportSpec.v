(** Which parts of a rule never fail without a message: for C120.  Only the
    grammar is looked at. *)
From Coq Require Import List.
From Verif Require Import Base GrammarModel.
Import ListNotations.

Section G.
Variable g : grammar.
(** The operands of nested alternatives. *)
Inductive branch : id -> id -> Prop :=
| branch_left n l r m : kind g n = NAlt l r -> branch l m -> branch n m
| branch_right n l r m : kind g n = NAlt l r -> branch r m -> branch n m
| branch_here n : (forall l r, kind g n <> NAlt l r) -> branch n n.
(** Terminals and calls, everything made of them; alternatives with an empty
    operand among them; attempts (the part that is tried may be anything);
    operator expressions without parentheses; inlined rules of symbols that no
    text can be made of alone. *)
Inductive tells : id -> Prop :=
| tells_zero n : kind g n = NZero -> tells n
| tells_term n : kind g n = NTerm -> tells n
| tells_call n s : kind g n = NNon s -> tells n
| tells_inl n s e i : kind g n = NInl s -> search_rule g s = Some e -> kind g e = NEvolve i s -> ~ In s (gstart g) -> tells i -> tells n
| tells_plus n i c a : kind g n = NPlus i c a -> tells i -> tells n
| tells_star n i c a : kind g n = NStar i c a -> tells i -> tells n
| tells_code n : kind g n = NAct None -> tells n
| tells_act n i : kind g n = NAct (Some i) -> tells i -> tells n
| tells_alt n l r z : kind g n = NAlt l r -> branch n z -> kind g z = NZero -> (forall m, branch n m -> tells m) -> tells n
| tells_cons n l r : kind g n = NCons l r -> tells l -> tells r -> tells n
| tells_catch n t c : kind g n = NTry t (Some c) -> tells c -> tells n
| tells_recover n t : kind g n = NTry t None -> tells n
| tells_ann n i : kind g n = NAnn i -> tells i -> tells n
| tells_cond n i : kind g n = NCond i -> tells i -> tells n
| tells_oper n b ops x : kind g n = NOper b ops x -> (forall t u, ~ In (OParen t u) ops) -> tells b -> tells n.
End G.
