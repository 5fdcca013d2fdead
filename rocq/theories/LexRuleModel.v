(** Lexer rules with lookahead and barrier: the semantic actions of
    lexer_declaration_rest, kdev-pg-parser.yy 189-276. *)
From Coq Require Import List NArith ZArith Bool.
From Verif Require Import Base AutomatonModel NfaDiagModel LexerModel.
Import ListNotations.

Section M.
Variable C : cset.

(** GNFA::anyChar, kdev-pg-regexp.cpp 1182-1187, for the codecs with one unit
    per character (the UTF-8 and UTF-16 branches are not modelled). *)
Definition anyChar : nfa C := nfa_set C (c_full C).
(** GNFA::anything, 1230-1234. *)
Definition anything : nfa C := nfa_star C anyChar.

Inductive lrule :=
| LPlain (a : nfa C) (f : finish)
| LLook (a s : nfa C) (f : finish)
| LBarrier (a b : nfa C) (f : finish).

(** The automata and actions pushed for a rule; [fuel] bounds dfa() and
    maxLength().  A number of [-1] in [plain() -= -1] (208-230, empty lookahead)
    is taken as 0: such a rule never matches. *)
Definition compile_rule (fuel : nat) (ord : list (list bool) -> list (list bool)) (r : lrule) : option (list (nfa C * action)) :=
  match r with
  | LPlain a f => Some [(a, MkAction 0 f)]
  | LLook a s f =>
    do mn <- minLength C s; do mx <- maxLength C fuel s;
    if (mn =? 0)%Z then Some [(a, MkAction 0 f)]
    else if negb (mn =? mx)%Z then Some [(a, MkAction 0 f)]
    else Some [(nfa_concat C a s, MkAction (Z.to_nat mn) f)]
  | LBarrier a b f =>
    do mn <- minLength C b; do mx <- maxLength C fuel b;
    if (mn =? 0)%Z then Some [(a, MkAction 0 f)]
    else if negb (mn =? mx)%Z then Some [(a, MkAction 0 f)]
    else
      let exclude := nfa_concat C (nfa_concat C anything b) anything in
      do staying <- nfa_but C fuel fuel ord a exclude;
      do crossing <- nfa_but C fuel fuel ord (nfa_concat C a b) (nfa_concat C exclude anyChar);
      Some [(staying, MkAction 0 f); (crossing, MkAction (Z.to_nat mn) f)]
  end.
End M.
Arguments LPlain {C}. Arguments LLook {C}. Arguments LBarrier {C}.
