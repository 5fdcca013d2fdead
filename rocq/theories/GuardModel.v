(** The include guards of the generated headers: generateOutput, generateLexer and
    generateVisitor of /repo/src/kdev-pg-generate.cpp.

    Left out: letters outside of ASCII (toUpper and toLatin1 leave ASCII texts to [upper]);
    the bytes are those of a char, which is taken to be signed as on x86. *)
From Coq Require Import List NArith ZArith Ascii String Bool.
From Verif Require Import FlexModel.
Import ListNotations.
Open Scope string_scope.
Open Scope list_scope.

(** QString::toUpper for ASCII. *)
Definition upper (x : text) : text :=
  map (fun a => let n := N_of_ascii a in if N.leb 97 n && N.leb n 122 then ascii_of_N (n - 32) else a) x.

(** A char as the comparisons of 42 and 776 see it. *)
Definition code (a : ascii) : Z :=
  let n := Z.of_N (N_of_ascii a) in if Z.ltb n 128 then n else (n - 256)%Z.

(** kdev-pg-generate.cpp 40-44 and 774-778 *)
Definition plain (x : text) : text :=
  map (fun a => if Z.ltb (code a) 48 || (Z.ltb 57 (code a) && Z.ltb (code a) 65) || Z.ltb 90 (code a)
                then "_"%char else a) x.

(** The headers, in the order of the file. *)
Inductive header :=
| Ast | AstFwd | TokenType | Parser | Visitor | DefaultVisitor | Serialization | DebugVisitor | TokenText
| Lexer
| New (name : text).

(** What follows #ifndef and #define: 39-44 with 58, 105, 139, 178, 240, 278, 316, 358, 399;
    532 with 543; 773-779 with 785. *)
Definition guard (language : text) (h : header) : text :=
  match h with
  | Ast => plain (upper language) ++ chars "_AST_H_INCLUDED"
  | AstFwd => plain (upper language) ++ chars "_AST_FWD_INCLUDED"
  | TokenType => plain (upper language) ++ chars "_TOKEN_TYPE_H_INCLUDED"
  | Parser => plain (upper language) ++ chars "_H_INCLUDED"
  | Visitor => plain (upper language) ++ chars "_VISITOR_H_INCLUDED"
  | DefaultVisitor => plain (upper language) ++ chars "_DEFAULT_VISITOR_H_INCLUDED"
  | Serialization => plain (upper language) ++ chars "_SERIALIZATION_H_INCLUDED"
  | DebugVisitor => plain (upper language) ++ chars "_DEBUG_VISITOR_H_INCLUDED"
  | TokenText => plain (upper language) ++ chars "_TOKEN_TEXT_H_INCLUDED"
  | Lexer => upper language ++ chars "_LEXER_H_INCLUDED"
  | New name => plain (upper language) ++ chars "_" ++ upper name ++ chars "_H"
  end.
