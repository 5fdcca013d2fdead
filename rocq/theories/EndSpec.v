(** When the generated parser cannot go on for ever. *)
From Coq Require Import List Relations.
From Verif Require Import GrammarModel GrammarSpec.
Import ListNotations.

Section S.
Variable g : grammar.
Notation kind := (kind g).

(** An item that can be got through with nothing read: it can be empty, it is
    left out (what is inlined, if its first token does not fit) or given up at the end
    of the input (try/recover). *)
Inductive idle : id -> Prop :=
| i_zero n : kind n = NZero -> idle n
| i_code n : kind n = NAct None -> idle n
| i_act n i : kind n = NAct (Some i) -> idle i -> idle n
| i_non n s e i : kind n = NNon s -> In e (grules g) -> kind e = NEvolve i s -> idle i -> idle n
| i_inl n s : kind n = NInl s -> idle n
| i_plus n i c a : kind n = NPlus i c a -> idle i -> idle n
| i_star n i c a : kind n = NStar i c a -> idle n
| i_altl n l r : kind n = NAlt l r -> idle l -> idle n
| i_altr n l r : kind n = NAlt l r -> idle r -> idle n
| i_cons n l r : kind n = NCons l r -> idle l -> idle r -> idle n
| i_try n t c : kind n = NTry t c -> idle t -> idle n
| i_catch n t c : kind n = NTry t (Some c) -> idle c -> idle n
| i_recover n t : kind n = NTry t None -> idle n
| i_ann n i : kind n = NAnn i -> idle i -> idle n
| i_cond n i : kind n = NCond i -> idle i -> idle n
| i_oper n b ops x : kind n = NOper b ops x -> idle b -> idle n.

(** [starts n m]: at [n], item [m] can be come to with nothing read between. *)
Inductive starts : id -> id -> Prop :=
| s_non n s e i : kind n = NNon s -> In e (grules g) -> kind e = NEvolve i s -> starts n i
| s_inl n s e i : kind n = NInl s -> In e (grules g) -> kind e = NEvolve i s -> starts n i
| s_plus n i c a : kind n = NPlus i c a -> starts n i
| s_star n i c a : kind n = NStar i c a -> starts n i
| s_again n i c a : kind n = NPlus i c a \/ kind n = NStar i c a -> idle i -> starts n n
| s_act n i : kind n = NAct (Some i) -> starts n i
| s_altl n l r : kind n = NAlt l r -> starts n l
| s_altr n l r : kind n = NAlt l r -> starts n r
| s_consl n l r : kind n = NCons l r -> starts n l
| s_consr n l r : kind n = NCons l r -> idle l -> starts n r
| s_try n t c : kind n = NTry t c -> starts n t
| s_catch n t c : kind n = NTry t (Some c) -> starts n c
| s_ann n i : kind n = NAnn i -> starts n i
| s_cond n i : kind n = NCond i -> starts n i
| s_oper n b ops x : kind n = NOper b ops x -> starts n b.

(** No item can be come to from itself with nothing read: no left recursion, and
    the bodies of loops read something. *)
Definition no_left_recursion : Prop := forall n, inside g n = true -> ~ clos_trans id starts n n.
End S.
