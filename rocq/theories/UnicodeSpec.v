(** What the data files say.  Nothing here refers to the loader. *)
From Coq Require Import List NArith Bool Ascii String.
From Verif Require Import FlexModel.
Import ListNotations.
Local Open Scope N_scope.

(** Hexadecimal numbers. *)
Definition digit_of (c : ascii) (d : N) : Prop :=
  nth_error (chars "0123456789abcdef") (N.to_nat d) = Some c \/ nth_error (chars "0123456789ABCDEF") (N.to_nat d) = Some c.
Inductive number : text -> N -> Prop :=
| number_one c d : digit_of c d -> number [c] d
| number_more s v c d : number s v -> digit_of c d -> number (s ++ [c]) (16 * v + d).

(** Blanks; letters as they come out in the name of a class. *)
Definition blank (c : ascii) : Prop := In c (chars " " ++ ["009"; "010"; "011"; "012"; "013"]%char).
Definition upper_case : text := chars "ABCDEFGHIJKLMNOPQRSTUVWXYZ".
Definition lower_case : text := chars "abcdefghijklmnopqrstuvwxyz".
Inductive spelt : ascii -> ascii -> Prop :=
| spelt_upper i c d : nth_error upper_case i = Some c -> nth_error lower_case i = Some d -> spelt c d
| spelt_gap c : c = " "%char \/ c = "-"%char -> spelt c "_"
| spelt_same c : ~ In c upper_case -> c <> " "%char -> c <> "-"%char -> spelt c c.
(** The text between the semicolon and the comment, and the class it names. *)
Definition names (raw name : text) : Prop :=
  exists b core b', raw = b ++ core ++ b' /\ Forall blank b /\ Forall blank b' /\
    (forall c r, core = c :: r -> ~ blank c) /\ (forall c r, core = r ++ [c] -> ~ blank c) /\ Forall2 spelt core name.

(** An entry: the first and the last code point and the class they belong to. *)
Record entry := Entry { first : N; last_ : N; under : text }.
(** What may come after a number: something without a semicolon that does not go on with the
    number; what may come after the semicolon. *)
Definition padding (p : text) : Prop := ~ In ";"%char p /\ forall c r, p = c :: r -> forall d, ~ digit_of c d.
Definition ending (s name : text) : Prop :=
  exists raw, names raw name /\ ~ In "#"%char raw /\ (s = raw \/ exists comment, s = raw ++ ["#"%char] ++ comment).
Definition has_dots (s : text) : Prop := exists u v, s = u ++ ["."; "."]%char ++ v.
(** The lines: comments, empty lines, single code points and ranges. *)
Inductive line : text -> list entry -> Prop :=
| line_comment s : line ("#"%char :: s) []
| line_empty : line [] []
| line_one d v p s n : number d v -> v <= 0x10ffff -> padding p -> ending s n -> n <> [] -> ~ has_dots (d ++ p ++ [";"%char] ++ s) ->
    line (d ++ p ++ [";"%char] ++ s) [Entry v v n]
| line_range d v d' v' p s n : number d v -> number d' v' -> v <= v' -> v' <= 0x10ffff -> padding p -> ending s n -> n <> [] ->
    line (d ++ ["."; "."]%char ++ d' ++ p ++ [";"%char] ++ s) [Entry v v' n].
(** A file: its lines, the last one with a line feed at its end or without. *)
Inductive data_file : text -> list entry -> Prop :=
| data_end : data_file [] []
| data_last l es : line l es -> ~ In "010"%char l -> data_file l es
| data_line l es r es' : line l es -> ~ In "010"%char l -> data_file r es' -> data_file (l ++ ["010"%char] ++ r) (es ++ es').
(** The code points of a class. *)
Definition listed (es : list entry) (n : text) (c : N) : Prop := exists e, In e es /\ under e = n /\ first e <= c <= last_ e.
