(** The generated lexer: the code written by DFA::codegen
    (kdev-pg-regexp.cpp 96-117) inside the frame of LEXER_CORE_IMPL and the lx
    macros (kdev-pg-generate.cpp 656-676, 714-720, 738). *)
From Coq Require Import List NArith ZArith.
From Verif Require Import Base AutomatonModel.
Import ListNotations.

Section M.
Variable C : cset.
(** The input iterator: [nxt p] is [None] when hasNext() is false at plain
    position [p], otherwise the character of next() and the position after. *)
Variable nxt : nat -> option (N * nat).

(** kdev-pg-regexp.cpp 100-107: at label _state_q: remember an accepting
    position and action, read a character (lxNEXT_CHR, generate.cpp 676), branch
    (CharSetCondition) to the next label or to _end. [pos] is plain(). *)
Fixpoint scan (fuel : nat) (d : dfa C) (q pos lpos lstate : nat) : option (nat * nat) :=
  match fuel with
  | O => None
  | S f =>
    let here := negb (Nat.eqb (nth q (daccept d) 0) 0) in
    let lpos := if here then pos else lpos in
    let lstate := if here then nth q (daccept d) 0 else lstate in
    match nxt pos with
    | None => Some (lpos, lstate)
    | Some (c, pos') =>
      match c_branch C (rowof C (drules d) q) c with
      | None => Some (lpos, lstate)
      | Some t => scan f d t pos' lpos lstate
      end
    end
  end.

(** DFA::nextAction, kdev-pg-regexp.cpp 186-216: the interpreter of the same
    automaton; the loop tests hasNext() first. [None] stands for action -1. *)
Fixpoint next_action (fuel : nat) (d : dfa C) (q pos npos : nat) (action : option nat) : option (nat * option nat) :=
  match fuel with
  | O => None
  | S f =>
    let here := negb (Nat.eqb (nth q (daccept d) 0) 0) in
    let npos := if here then pos else npos in
    let action := if here then Some (nth q (daccept d) 0) else action in
    match nxt pos with
    | None => Some (npos, action)
    | Some (c, pos') =>
      match first_rule C (rowof C (drules d) q) c with
      | None => Some (npos, action)
      | Some t => next_action f d t pos' npos action
      end
    end
  end.

(** Rule actions as written by opt_lexer_action (kdev-pg-parser.yy 292-300)
    after an optional [plain() -= n] of a lookahead (230); the user's code in
    between is taken to leave the lexer alone. *)
Inductive finish := Return (kind : N) | Skip | Continue.
Record action := MkAction { a_back : nat; a_finish : finish }.

Record token := MkToken { t_kind : N; t_begin : Z; t_end : Z }.
(** Token_EOF (kdev-pg-token-type-gen.cpp). *)
Definition Token_EOF : N := 1000.
(** lxEOF, generate.cpp 669. *)
Definition eof_at (p : nat) : token := MkToken Token_EOF (Z.of_nat p) (Z.of_nat p).
(** lxNAMED_TOKEN, generate.cpp 665. *)
Definition tok_at (k : N) (s p : nat) : token := MkToken k (Z.of_nat s) (Z.of_nat p - 1).

(** plain(), spos, continueLexeme, the tokens pushed so far (oldest first). *)
Record lexer := MkLexer { l_pos : nat; l_spos : nat; l_cont : bool; l_tokens : list token }.
Definition start : lexer := MkLexer 0 0 false [].

(** read() when the token stream has no token left to deliver
    (LEXER_CORE_IMPL); [acts] are the actions 1, 2, ...; action 0 is the fail
    action, whose code is taken to fall through to lxFINISH. *)
Fixpoint read (fuel : nat) (d : dfa C) (acts : list action) (l : lexer) : option lexer :=
  match fuel with
  | O => None
  | S f =>
    match nxt (l_pos l) with
    | None => Some (MkLexer (l_pos l) (l_spos l) (l_cont l) (l_tokens l ++ [eof_at (l_pos l)]))
    | Some _ =>
      let spos := if l_cont l then l_spos l else l_pos l in
      do r <- scan f d 0 (l_pos l) (l_pos l) 0;
      let '(lpos, lstate) := r in
      match lstate with
      | O => Some (MkLexer lpos spos false (l_tokens l ++ [eof_at lpos]))
      | S k =>
        do a <- nth_error acts k;
        let p := lpos - a_back a in
        match a_finish a with
        | Return kind => Some (MkLexer p spos false (l_tokens l ++ [tok_at kind spos p]))
        | Skip => read f d acts (MkLexer p spos false (l_tokens l))
        | Continue => read f d acts (MkLexer p spos true (l_tokens l))
        end
      end
    end
  end.
(** Several reads. *)
Fixpoint reads_n (n fuel : nat) (d : dfa C) (acts : list action) (l : lexer) : option lexer :=
  match n with
  | O => Some l
  | S n' => do l' <- read fuel d acts l; reads_n n' fuel d acts l'
  end.

(** kdev-pg-main.cpp 448-454: the automaton of a rule set. *)
Definition lexer_dfa (fuel : nat) (ord : list (list bool) -> list (list bool)) (rules : list (nfa C)) : option (dfa C) :=
  do d <- dfa_of C fuel fuel ord (nfa_list C rules); minimize C d.
End M.
(** Iterators over a buffer of characters, one unit per character
    (ByteStringIterator, QStringIterator: kdev-pg-char-sets.h 201-268). *)
Definition unit_iter (buf : list N) (p : nat) : option (N * nat) :=
  match nth_error buf p with Some c => Some (c, S p) | None => None end.
