(** Regular expressions as written in lexer rules and the automata built for
    them by the semantic actions of kdev-pg-parser.yy, 302-445. *)
From Coq Require Import List NArith.
From Verif Require Import Base AutomatonModel.
Import ListNotations.

Section M.
Variable C : cset.

(** Syntax.  [RSet s] is a one-character automaton with character set [s]
    (a range, or one character of a collection, for codecs with one unit per
    character); [RWord s] a string, given by its code units.  A collection
    [abc] is [ROr] of its characters starting from [RNone] (GNFA::collection,
    kdev-pg-regexp.cpp 1170-1180). *)
Inductive re :=
| RNone | REps | RSet (s : car C) | RWord (s : list N)
| ROr (r s : re) | RAnd (r s : re) | RBut (r s : re) | RNot (r : re) | ROpt (r : re)
| RCat (r s : re) | RSep (r s : re) | RStar (r : re) | RPlus (r : re) | RNamed (r : re).

(** The actions: [|] 303, [&] 308, [^] 313, [~] 318, [?] 319 (union with the
    empty word), juxtaposition 324, [r @ s] 329 (r (s r) star), [*] 334, [+] 335
    (star of a copy, then the expression again), a named regexp 344-359 (its
    automaton is determinised, minimised and converted back; [fuel] bounds the
    loops of dfa(); a fault of minimize() is a fault here). *)
Fixpoint build (fuel : nat) (ord : list (list bool) -> list (list bool)) (r : re) : option (nfa C) :=
  match r with
  | RNone => Some (nfa_empty C)
  | REps => Some (nfa_emptyWord C)
  | RSet s => Some (nfa_set C s)
  | RWord s => Some (nfa_word C s)
  | ROr r s => do a <- build fuel ord r; do b <- build fuel ord s; Some (nfa_or C a b)
  | RAnd r s => do a <- build fuel ord r; do b <- build fuel ord s; nfa_and C fuel fuel ord a b
  | RBut r s => do a <- build fuel ord r; do b <- build fuel ord s; nfa_but C fuel fuel ord a b
  | RNot r => do a <- build fuel ord r; nfa_negate C fuel fuel ord a
  | ROpt r => do a <- build fuel ord r; Some (nfa_or C a (nfa_emptyWord C))
  | RCat r s => do a <- build fuel ord r; do b <- build fuel ord s; Some (nfa_concat C a b)
  | RSep r s => do a <- build fuel ord r; do b <- build fuel ord s;
                Some (nfa_concat C a (nfa_star C (nfa_concat C b a)))
  | RStar r => do a <- build fuel ord r; Some (nfa_star C a)
  | RPlus r => do a <- build fuel ord r; Some (nfa_concat C (nfa_star C a) a)
  | RNamed r => do a <- build fuel ord r; do d <- dfa_of C fuel fuel ord a; do d' <- minimize C d; Some (nfa_of C d')
  end.
End M.
Arguments RNone {C}. Arguments REps {C}. Arguments RSet {C}. Arguments RWord {C}. Arguments ROr {C}. Arguments RAnd {C}.
Arguments RBut {C}. Arguments RNot {C}. Arguments ROpt {C}. Arguments RCat {C}. Arguments RSep {C}. Arguments RStar {C}.
Arguments RPlus {C}. Arguments RNamed {C}.
