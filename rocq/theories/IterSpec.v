(** What lexing an encoded text means, and what rule sets are to do. *)
From Coq Require Import List NArith ZArith Bool PeanoNat.
From Verif Require Import Base AutomatonModel UtfModel LexerModel LexerSpec IterModel.
Import ListNotations.

(** The number of units of the first [i] characters. *)
Definition offset (enc : N -> list N) (text : list N) (i : nat) : nat := length (flat_map enc (firstn i text)).
(** The same token, over characters and over units. *)
Inductive same_token (off : nat -> nat) : token -> token -> Prop :=
| same_tok k s p : same_token off (tok_at k s p) (tok_at k (off s) (off p))
| same_eof p : same_token off (eof_at p) (eof_at (off p)).
(** The same end of a sequence of reads, over characters and over units. *)
Definition same_out {I J} (off : nat -> nat) (o : out (lexing I)) (o' : out (lexing J)) : Prop :=
  match o, o' with
  | Done l, Done l' =>
    Forall2 (same_token off) (x_tokens l) (x_tokens l') /\ it_pos J (x_it l') = off (it_pos I (x_it l)) /\
    x_set l = x_set l' /\ x_cont l = x_cont l' /\ x_log l = x_log l'
  | Undefined, Undefined | Exits, Exits | Unfinished, Unfinished => True
  | _, _ => False
  end.
(** A word leads the automaton from one state to another. *)
Inductive leads {C} (d : dfa C) : nat -> list N -> nat -> Prop :=
| leads_nil q : leads d q [] q
| leads_cons q c t w q' : c_branch C (rowof C (drules d) q) c = Some t -> leads d t w q' -> leads d q (c :: w) q'.
(** All the text that actions give back is made of the characters [one]. *)
Definition gives_back {C} (one : N -> Prop) (rs : rule_set C) : Prop :=
  forall k a w q, nth_error (s_rules rs) k = Some a -> leads (s_dfa rs) 0 w q -> nth q (daccept (s_dfa rs)) 0 = S k ->
    r_back a <= length w /\ Forall one (skipn (length w - r_back a) w).

(** ** Rule sets *)
Section S.
Variable text : list N.
(** The languages of the rules of every set, their actions, the actions without
    a match. *)
Variable langs : list (list (list N -> Prop)).
Variable acts : list (list rule_action).
Variable fails : list (option (list nat)).
Notation longest := (longest (unit_iter text)).
Notation no_match := (no_match (unit_iter text)).
Definition in_set {A} (l : list (list A)) (r : nat) : list A := nth r l [].
(** After the switches [ss] in the set [r]. *)
Definition after (r : nat) (ss : list nat) : nat := last ss r.
Definition calls (r : nat) (ss : list nat) : list event := flat_map (fun x => [Leaving r; Entering x]) ss.
(** The next token, in the rule set [r], of a lexeme begun at [s], from
    position [p]; then the position, the rule set and the calls. *)
Inductive next_in : nat -> nat -> nat -> token -> nat -> nat -> list event -> Prop :=
| NI_eof r s p : length text <= p -> next_in r s p (eof_at p) p r []
| NI_fail r s p ss : p < length text -> no_match (in_set langs r) p -> nth_error fails r = Some (Some ss) ->
    next_in r s p (eof_at p) p (after r ss) (calls r ss)
| NI_return r s p k w q n ss kind : p < length text -> longest (in_set langs r) p k w q ->
    nth_error (in_set acts r) k = Some (MkRule n ss (Return kind)) ->
    next_in r s p (tok_at kind s (q - n)) (q - n) (after r ss) (calls r ss)
| NI_skip r s p k w q n ss t p' r' ev : p < length text -> longest (in_set langs r) p k w q ->
    nth_error (in_set acts r) k = Some (MkRule n ss Skip) ->
    next_in (after r ss) (q - n) (q - n) t p' r' ev -> next_in r s p t p' r' (calls r ss ++ ev)
| NI_continue r s p k w q n ss t p' r' ev : p < length text -> longest (in_set langs r) p k w q ->
    nth_error (in_set acts r) k = Some (MkRule n ss Continue) ->
    next_in (after r ss) s (q - n) t p' r' ev -> next_in r s p t p' r' (calls r ss ++ ev).
(** The next token begins, after skipped and continued text, where no rule of
    a set without %fail matches. *)
Inductive stuck_in : nat -> nat -> Prop :=
| SI_here r p : p < length text -> no_match (in_set langs r) p -> nth_error fails r = Some None -> stuck_in r p
| SI_later r p k w q n ss fin : p < length text -> longest (in_set langs r) p k w q ->
    nth_error (in_set acts r) k = Some (MkRule n ss fin) -> (fin = Skip \/ fin = Continue) ->
    stuck_in (after r ss) (q - n) -> stuck_in r p.
End S.

(** Calls in which the set left is always the current one. *)
Inductive in_turn : nat -> list event -> nat -> Prop :=
| turn_nil r : in_turn r [] r
| turn_cons r x l r' : in_turn x l r' -> in_turn r (Leaving r :: Entering x :: l) r'.
