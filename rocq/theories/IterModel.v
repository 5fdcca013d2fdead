(** The generated lexer with its rule sets, over the input iterators of
    kdev-pg-char-sets.h: kdev-pg-generate.cpp 570-590, 656-738, DFA::codegen
    (kdev-pg-regexp.cpp 96-117).  [LexerModel] has one rule set and iterators
    without a state of their own; here the iterator is an object. *)
From Coq Require Import List NArith ZArith Bool PeanoNat.
From Verif Require Import Base AutomatonModel UtfModel LexerModel.
Import ListNotations.

(** What the lexer uses of its base class Iterator: hasNext(), next(), plain()
    as an offset from begin(), assignment to plain(). *)
Record iterator := MkIterator {
  it_state : Type;
  it_more : it_state -> bool;
  it_next : it_state -> res (N * it_state);
  it_pos : it_state -> nat;
  it_put : nat -> it_state -> it_state }.

(** hasNext() is [ptr != end] in all of them. *)
Definition more_at (buf : list N) (p : nat) : bool := negb (Nat.eqb p (length buf)).
(** ByteStringIterator, kdev-pg-char-sets.h 234-268. *)
Definition unit_iterator (buf : list N) : iterator :=
  MkIterator nat (more_at buf) (fun p => let! c := rd buf p in Ok (c, S p)) (fun p => p) (fun p _ => p).
(** QUtf16ToUcs4Iterator, 271-307. *)
Definition utf16_iterator (buf : list N) : iterator :=
  MkIterator nat (more_at buf) (next16 buf) (fun p => p) (fun p _ => p).
(** Utf8ToUcs4Iterator (309-405), QUtf8ToUcs2Iterator (410-468),
    QUtf8ToAsciiIterator (552-612), told apart by [keep]. *)
Definition utf8_iterator (keep : N -> bool) (buf : list N) : iterator :=
  MkIterator nat (more_at buf) (next8 keep (rounds buf) buf) (fun p => p) (fun p _ => p).
(** QUtf8ToUtf16Iterator, 470-550: plain() is [ptr] alone, the pending
    [surrogate] is not touched by an assignment to it. *)
Definition utf8_16_iterator (buf : list N) : iterator :=
  MkIterator (nat * N) (fun s => more_at buf (fst s)) (next8_16 (rounds buf) buf) fst (fun p s => (p, snd s)).

(** How a call ends: [Undefined] is a read outside of the input, a position
    before its begin, or the end of the switch over the actions without a case;
    [Exits] is exit(-1). *)
Inductive out (A : Type) := Done (a : A) | Undefined | Exits | Unfinished.
Arguments Done {A}. Arguments Undefined {A}. Arguments Exits {A}. Arguments Unfinished {A}.

Section M.
Variable C : cset.
Variable I : iterator.

(** The labels _state_q, kdev-pg-regexp.cpp 100-107, with lxNEXT_CHR
    (generate.cpp 674): the iterator where the automaton stopped, lpos and
    lstate. *)
Fixpoint run (fuel : nat) (d : dfa C) (q : nat) (it : it_state I) (lpos lstate : nat) : out (it_state I * (nat * nat)) :=
  match fuel with
  | O => Unfinished
  | S f =>
    let here := negb (Nat.eqb (nth q (daccept d) 0) 0) in
    let lpos := if here then it_pos I it else lpos in
    let lstate := if here then nth q (daccept d) 0 else lstate in
    if it_more I it then
      match it_next I it with
      | Ok (c, it') =>
        match c_branch C (rowof C (drules d) q) c with
        | None => Done (it', (lpos, lstate))
        | Some t => run f d t it' lpos lstate
        end
      | Overrun => Undefined
      | NoFuel => Unfinished
      end
    else Done (it, (lpos, lstate))
  end.

(** An action: [plain() -= r_back] (kdev-pg-parser.yy 229, 272), the code of
    the user, of which only the calls of lxSET_RULE_SET are modelled, in their
    order, and the end by lxRETURN, lxSKIP or lxCONTINUE (292-300). *)
Record rule_action := MkRule { r_back : nat; r_sets : list nat; r_finish : finish }.
(** A rule set: its automaton, its action 0 and its actions 1, 2, ....  Without
    %fail action 0 is exit(-1) (kdev-pg-parser.yy 183-184); with %fail the
    user's code falls through to lxFINISH. *)
Record rule_set := MkSet { s_dfa : dfa C; s_fail : option (list nat); s_rules : list rule_action }.

(** The calls of enteringRuleSet.. and leavingRuleSet.., generate.cpp 680-684. *)
Inductive event := Leaving (r : nat) | Entering (r : nat).
(** lxSET_RULE_SET, generate.cpp 678, several times in the code of one action
    of the rule set [cur]: CURRENT_RULE_SET is fixed in the text (731). *)
Definition switch (cur : nat) (sets : list nat) (s : nat * list event) : nat * list event :=
  fold_left (fun s r => (r, snd s ++ [Leaving cur; Entering r])) sets s.

(** The members: iterator, spos, continueLexeme, m_ruleSet, the tokens and the
    calls so far.  A lexer without rule sets has the set 0 alone. *)
Record lexing := MkLexing { x_it : it_state I; x_spos : nat; x_cont : bool; x_set : nat; x_tokens : list token; x_log : list event }.
(** The constructor, generate.cpp 643-644 (spos is written before it is read). *)
Definition begin_at (it : it_state I) (r : nat) : lexing := MkLexing it 0 false r [] [].

(** read() with no token left to deliver, generate.cpp 714-738: dispatch over
    m_ruleSet, lexX(), and read() again for lxSKIP and lxCONTINUE. *)
Fixpoint lex (fuel : nat) (sets : list rule_set) (l : lexing) : out lexing :=
  match fuel with
  | O => Unfinished
  | S f =>
    match nth_error sets (x_set l) with
    | None => Exits
    | Some rs =>
      let here := it_pos I (x_it l) in
      if it_more I (x_it l) then
        let spos := if x_cont l then x_spos l else here in
        match run f (s_dfa rs) 0 (x_it l) here 0 with
        | Done (it, (lpos, O)) =>
          match s_fail rs with
          | None => Exits
          | Some ss =>
            let '(r, log) := switch (x_set l) ss (x_set l, x_log l) in
            Done (MkLexing (it_put I lpos it) spos false r (x_tokens l ++ [eof_at lpos]) log)
          end
        | Done (it, (lpos, S k)) =>
          match nth_error (s_rules rs) k with
          | None => Undefined
          | Some a =>
            if Nat.ltb lpos (r_back a) then Undefined
            else
              let p := lpos - r_back a in
              let it := it_put I p it in
              let '(r, log) := switch (x_set l) (r_sets a) (x_set l, x_log l) in
              match r_finish a with
              | Return kind => Done (MkLexing it spos false r (x_tokens l ++ [tok_at kind spos p]) log)
              | Skip => lex f sets (MkLexing it spos false r (x_tokens l) log)
              | Continue => lex f sets (MkLexing it spos true r (x_tokens l) log)
              end
          end
        | Undefined => Undefined
        | Exits => Exits
        | Unfinished => Unfinished
        end
      else Done (MkLexing (x_it l) (x_spos l) (x_cont l) (x_set l) (x_tokens l ++ [eof_at here]) (x_log l))
    end
  end.
(** Several reads. *)
Fixpoint lex_n (n fuel : nat) (sets : list rule_set) (l : lexing) : out lexing :=
  match n with
  | O => Done l
  | S n' =>
    match lex fuel sets l with
    | Done l' => lex_n n' fuel sets l'
    | Undefined => Undefined | Exits => Exits | Unfinished => Unfinished
    end
  end.
End M.
Arguments MkSet {C}. Arguments s_dfa {C}. Arguments s_fail {C}. Arguments s_rules {C}.
Arguments MkLexing {I}. Arguments x_it {I}. Arguments x_spos {I}. Arguments x_cont {I}. Arguments x_set {I}. Arguments x_tokens {I}. Arguments x_log {I}.
