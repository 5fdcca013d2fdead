(** The automata that can be built through the operations of NFA and DFA. *)
From Coq Require Import List NArith Permutation.
From Verif Require Import AutomatonModel AutomatonSpec.
Import ListNotations.

Section S.
Variable C : cset.
Variable ok : car C -> Prop.
Inductive api : nfa C -> Prop :=
| api_empty : api (nfa_empty C)
| api_emptyWord : api (nfa_emptyWord C)
| api_set s x : ok s -> c_eps C s = false -> c_acc C s x = true -> api (nfa_set C s)
| api_or a b : api a -> api b -> api (nfa_or C a b)
| api_concat a b : api a -> api b -> api (nfa_concat C a b)
| api_star a : api a -> api (nfa_star C a)
| api_negate f ff ord a n : (forall l, Permutation (ord l) l) -> api a -> nfa_negate C f ff ord a = Some n -> api n
| api_and f ff ord a b n : (forall l, Permutation (ord l) l) -> api a -> api b -> nfa_and C f ff ord a b = Some n -> api n
| api_but f ff ord a b n : (forall l, Permutation (ord l) l) -> api a -> api b -> nfa_but C f ff ord a b = Some n -> api n
| api_minimize f ff ord a d d' : (forall l, Permutation (ord l) l) -> api a -> dfa_of C f ff ord a = Some d -> minimize C d = Some d' ->
    api (nfa_of C d')
| api_dfa f ff ord a d : (forall l, Permutation (ord l) l) -> api a -> dfa_of C f ff ord a = Some d -> api (nfa_of C d).
End S.
