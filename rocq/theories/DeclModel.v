(** Declarations of a grammar file: the kind of lexer
    (/repo/src/kdev-pg-parser.yy 101-156), token numbers
    (/repo/src/kdev-pg-token-type-gen.cpp), start symbols and the lookup of rules
    (/repo/src/kdev-pg.h 208-284). *)
From Coq Require Import List NArith PeanoNat Bool.
Import ListNotations.

(** ** GDFA::type
    The values of enum AutomatonType (/repo/src/kdev-pg-regexp.h 33): SAscii 0,
    SLatin1 1, SUtf8 2, SUcs2 3, SUtf16 4, SUcs4 5, TAscii 6, TLatin1 7, TUtf8 8,
    TUcs2 9, TUtf16 10.  The initial value is SUcs2 (kdev-pg-regexp.cpp 1502). *)
Definition initial_type : nat := 3.
(** %table_lexer, 101-116. *)
Definition table_lexer (t : nat) : nat := match t with 0 => 6 | 1 => 7 | 2 => 8 | 3 => 9 | 4 => 10 | _ => t end.
(** %sequence_lexer, 117-131. *)
Definition sequence_lexer (t : nat) : nat := match t with 6 => 0 | 7 => 1 | 8 => 2 | 9 => 3 | 10 => 4 | _ => t end.
(** The names of the codecs, 138-150; letters are ASCII codes.  str.toLower()
    and remove('-') are applied first. *)
Definition lower (c : N) : N := if (N.leb 65 c && N.leb c 90)%bool then (c + 32)%N else c.
Definition plain_name (s : list N) : list N := filter (fun c => negb (N.eqb c 45)) (map lower s).
Definition same (a b : list N) : bool := if list_eq_dec N.eq_dec a b then true else false.
Definition codec (s : list N) : option nat :=
  let s := plain_name s in
  if same s [97; 115; 99; 105; 105]%N then Some 0
  else if same s [108; 97; 116; 105; 110; 49]%N then Some 1
  else if same s [117; 116; 102; 56]%N then Some 2
  else if same s [117; 99; 115; 50]%N then Some 3
  else if same s [117; 116; 102; 49; 54]%N then Some 4
  else if (same s [117; 99; 115; 52]%N || same s [117; 116; 102; 51; 50]%N)%bool then Some 5
  else None.
(** %input_encoding, 132-156.  [None]: exit(-1). *)
Definition input_encoding (t : nat) (s : list N) : option nat := option_map (fun k => t / 4 * 4 + k) (codec s).
Inductive lexer_decl := TableLexer | SequenceLexer | InputEncoding (s : list N).
Definition declare (t : nat) (d : lexer_decl) : option nat :=
  match d with TableLexer => Some (table_lexer t) | SequenceLexer => Some (sequence_lexer t) | InputEncoding s => input_encoding t s end.
Fixpoint declare_all (t : nat) (ds : list lexer_decl) : option nat :=
  match ds with [] => Some t | d :: ds => match declare t d with Some t => declare_all t ds | None => None end end.

(** ** The enumeration of tokens
    GenerateToken and GenerateTokenType, 14-58: the names in the order of the map,
    with [eof] the name EOF; the last value is that of TokenTypeSize, which has no
    initialiser. *)
Section T.
Variable name : Type.
Variable is_eof : name -> bool.
Fixpoint tokens (next : N) (l : list name) : list (name * N) :=
  match l with
  | [] => []
  | x :: l => if is_eof x then (x, 1000%N) :: tokens next l else (x, next) :: tokens (N.succ next) l
  end.
Definition token_type (l : list name) : list (name * N) := tokens 1001 l.
Definition token_type_size (l : list name) : N := match rev (token_type l) with [] => 0%N | (_, v) :: _ => N.succ v end.
End T.

(** ** pushSymbol, kdev-pg.h 218-232
    [symbols] and [start] as lists of names. *)
Record symtab := { symbols : list nat; start : list nat }.
Definition known (x : nat) (l : list nat) : bool := existsb (Nat.eqb x) l.
Definition push_symbol (w : symtab) (x : nat) : symtab :=
  if known x (symbols w) then {| symbols := symbols w; start := filter (fun y => negb (Nat.eqb x y)) (start w) |}
  else {| symbols := x :: symbols w; start := x :: start w |}.
(** Where the parser calls it: parser.yy 479, 485 (uses), 557-610 (rules). *)
Inductive mention := Use (x : nat) | Rule (x : nat).
Definition mentioned (m : mention) : nat := match m with Use x | Rule x => x end.
Definition read (ms : list mention) : symtab := fold_left (fun w m => push_symbol w (mentioned m)) ms {| symbols := []; start := [] |}.

(** ** searchRule, kdev-pg.h 258-284
    A rule: the address of its symbol, and the rule itself. *)
Section R.
Variable rule : Type.
Definition entry := (nat * rule)%type.
(** ruleComp. *)
Definition before (a b : entry) : bool := Nat.ltb (fst a) (fst b).
(** std::lower_bound(rules.begin(), rules.end(), sym, &ruleComp) as the C++
    standard library does it: halving [first, first + len). *)
Fixpoint lower_bound (fuel : nat) (l : list entry) (sym first len : nat) : option nat :=
  match fuel with
  | 0 => None
  | S f =>
    if Nat.eqb len 0 then Some first
    else
      let half := len / 2 in
      match nth_error l (first + half) with
      | None => None
      | Some m => if Nat.ltb (fst m) sym then lower_bound f l sym (first + half + 1) (len - half - 1) else lower_bound f l sym first half
      end
  end.
(** The outer [None]: out of fuel or out of bounds. *)
Definition search (l : list entry) (sym : nat) : option (option rule) :=
  match lower_bound (S (length l)) l sym 0 (length l) with
  | None => None
  | Some i => match nth_error l i with Some (s, r) => if Nat.eqb s sym then Some (Some r) else Some None | None => Some None end
  end.
End R.
