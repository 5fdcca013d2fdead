(** Descriptions of tokens: pushTerminal (/repo/src/kdev-pg.h 208-216) with the declarations
    of kdev-pg-parser.yy 462-468 and the end of file of kdev-pg-follow.cpp 75, the function
    tokenText that GenerateTokenTexts writes (kdev-pg-code-gen.cpp 1252-1267), and the
    description in calls of expectedToken (kdev-pg-code-gen.cpp 130-141).

    Left out: the formatting of the files by astyle; characters outside of ASCII are the
    bytes of their encoding. *)
From Coq Require Import List NArith Ascii String Bool.
From Verif Require Import FlexModel DeclModel.
Import ListNotations.
Open Scope string_scope.
Open Scope list_scope.

Fixpoint text_eqb (x y : text) : bool :=
  match x, y with
  | [], [] => true
  | a :: x, b :: y => Ascii.eqb a b && text_eqb x y
  | _, _ => false
  end.

(** operator< of QString, the order of QMap. *)
Fixpoint text_ltb (x y : text) : bool :=
  match x, y with
  | _, [] => false
  | [], _ :: _ => true
  | a :: x, b :: y => N.ltb (N_of_ascii a) (N_of_ascii b) || (Ascii.eqb a b && text_ltb x y)
  end.

(** globalSystem.terminals, in the order of the keys: names with mDescription. *)
Definition terminals := list (text * text).

(** QMap::insert for a key that is not there. *)
Fixpoint insert (n d : text) (ts : terminals) : terminals :=
  match ts with
  | [] => [(n, d)]
  | (m, e) :: ts' => if text_ltb n m then (n, d) :: ts else (m, e) :: insert n d ts'
  end.

(** pushTerminal, kdev-pg.h 208-216 *)
Definition push_terminal (n d : text) (ts : terminals) : terminals :=
  if existsb (fun p => text_eqb n (fst p)) ts then ts else insert n d ts.

(** All declarations of a file in their order, then the end of file (follow.cpp 75). *)
Definition push_all (ds : list (text * text)) (ts : terminals) : terminals :=
  fold_left (fun ts p => push_terminal (fst p) (snd p) ts) ds ts.
Definition all_terminals (ds : list (text * text)) : terminals :=
  push_terminal (chars "EOF") (chars "end of file") (push_all ds []).

(** The enumeration TokenType. *)
Definition numbers (ts : terminals) : list (text * N) :=
  token_type text (text_eqb (chars "EOF")) (map fst ts).

(** QString::replace of a character. *)
Definition replace (c : ascii) (by_ : text) (x : text) : text :=
  flat_map (fun a => if Ascii.eqb a c then by_ else [a]) x.

Definition backslash : ascii := "\"%char.
Definition quote : ascii := """"%char.

(** code-gen.cpp 1260 *)
Definition escaped (d : text) : text :=
  replace quote [backslash; quote] (replace backslash [backslash; backslash] d).

(** What stands between the quotes in the return statement that the switch of tokenText
    comes to. *)
Definition token_text (ts : terminals) (k : N) : text :=
  match find (fun p => N.eqb (snd (fst p)) k) (combine (numbers ts) (map snd ts)) with
  | Some (_, d) => escaped d
  | None => chars "unknown token"
  end.

(** What stands between the quotes in the call of expectedToken, code-gen.cpp 141 *)
Definition expected_text (d : text) : text := d.
