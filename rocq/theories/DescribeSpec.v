(** String literals of C++ and declarations of tokens. *)
From Coq Require Import List NArith Ascii String.
From Verif Require Import FlexModel.
Import ListNotations.
Open Scope string_scope.
Open Scope list_scope.

(** The simple escape sequences.  Octal, hexadecimal and universal character names are not
    here. *)
Definition escapes : list (ascii * ascii) :=
  [("\", "\"); ("""", """"); ("'", "'"); ("?", "?");
   ("a", "007"); ("b", "008"); ("t", "009"); ("n", "010"); ("v", "011"); ("f", "012"); ("r", "013")]%char.

(** [literal x y]: the characters x between quotes are a string literal with the value y. *)
Inductive literal : text -> text -> Prop :=
| lit_end : literal [] []
| lit_char c x y : ~ In c ["\"; """"; "010"; "013"]%char -> literal x y -> literal (c :: x) (c :: y)
| lit_escape c v x y : In (c, v) escapes -> literal x y -> literal ("\"%char :: c :: x) (v :: y).

Definition one_line (x : text) : Prop := ~ In "010"%char x /\ ~ In "013"%char x.

(** The first declaration of a name. *)
Definition first_declared (ds : list (text * text)) (n d : text) : Prop :=
  exists l r, ds = l ++ (n, d) :: r /\ ~ In n (map fst l).
