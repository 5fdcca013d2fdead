(** What the declarations of a grammar file are to mean. *)
From Coq Require Import List NArith PeanoNat Bool Permutation.
From Verif Require Import DeclModel.
Import ListNotations.

(** Encodings and kinds of lexers, and the number the tool has for a pair. *)
Inductive enc := EAscii | ELatin1 | EUtf8 | EUcs2 | EUtf16 | EUcs4.
Inductive lexkind := KSequence | KTable.
Definition type_number (e : enc) (k : lexkind) : option nat :=
  match k, e with
  | KSequence, EAscii => Some 0 | KSequence, ELatin1 => Some 1 | KSequence, EUtf8 => Some 2 | KSequence, EUcs2 => Some 3 | KSequence, EUtf16 => Some 4 | KSequence, EUcs4 => Some 5
  | KTable, EAscii => Some 6 | KTable, ELatin1 => Some 7 | KTable, EUtf8 => Some 8 | KTable, EUcs2 => Some 9 | KTable, EUtf16 => Some 10 | KTable, EUcs4 => None
  end.
(** A declaration, with the encoding already looked up. *)
Inductive says_decl := SayKind (k : lexkind) | SayEnc (e : enc).
Definition effect (s : enc * lexkind) (d : says_decl) : enc * lexkind :=
  match d with SayKind k => (fst s, k) | SayEnc e => (e, snd s) end.
(** The ways in which the declarations do not get into each other's way: the
    encoding is declared for a sequence lexer that is not UTF-16 or UCS-4 yet, and
    a table lexer is not UCS-4. *)
Definition in_order (s : enc * lexkind) (d : says_decl) : bool :=
  match d, s with
  | SayEnc _, ((EAscii | ELatin1 | EUtf8 | EUcs2), KSequence) => true
  | SayEnc _, _ => false
  | SayKind KTable, (EUcs4, _) => false
  | SayKind _, _ => true
  end.
Fixpoint all_in_order (s : enc * lexkind) (ds : list says_decl) : bool :=
  match ds with [] => true | d :: ds => in_order s d && all_in_order (effect s d) ds end.

(** Sorted by the address of the symbol. *)
Fixpoint ordered {A} (l : list (nat * A)) : Prop :=
  match l with [] => True | x :: l => (forall y, In y l -> fst x <= fst y) /\ ordered l end.

(** The spellings of the encodings: small or capital letters, dashes anywhere. *)
Inductive spelled : list N -> list N -> Prop :=
| spd_nil : spelled [] []
| spd_dash s t : spelled s t -> spelled (45%N :: s) t
| spd_same c s t : c <> 45%N -> (c < 65 \/ 90 < c)%N -> spelled s t -> spelled (c :: s) (c :: t)
| spd_capital c s t : (65 <= c <= 90)%N -> spelled s t -> spelled (c :: s) ((c + 32)%N :: t).
(** ascii, latin1, utf8, ucs2, utf16, ucs4, utf32 *)
Definition enc_names : list (list N * enc) := [
  ([97; 115; 99; 105; 105]%N, EAscii); ([108; 97; 116; 105; 110; 49]%N, ELatin1); ([117; 116; 102; 56]%N, EUtf8); ([117; 99; 115; 50]%N, EUcs2);
  ([117; 116; 102; 49; 54]%N, EUtf16); ([117; 99; 115; 52]%N, EUcs4); ([117; 116; 102; 51; 50]%N, EUcs4)].
Definition names_enc (s : list N) (e : enc) : Prop := exists t, spelled s t /\ In (t, e) enc_names.
(** What the tool should have as type, and what a declaration says. *)
Definition stype (s : enc * lexkind) : option nat := type_number (fst s) (snd s).
Inductive stands : lexer_decl -> says_decl -> Prop :=
| st_table : stands TableLexer (SayKind KTable)
| st_sequence : stands SequenceLexer (SayKind KSequence)
| st_enc s e : names_enc s e -> stands (InputEncoding s) (SayEnc e).

(** How often a symbol is mentioned, used, and has a rule. *)
Definition times (x : nat) (ms : list mention) : nat := count_occ Nat.eq_dec (map mentioned ms) x.
Definition uses (x : nat) (ms : list mention) : nat := count_occ Nat.eq_dec (flat_map (fun m => match m with Use y => [y] | Rule _ => [] end) ms) x.
Definition rules_of (x : nat) (ms : list mention) : nat := count_occ Nat.eq_dec (flat_map (fun m => match m with Use _ => [] | Rule y => [y] end) ms) x.
