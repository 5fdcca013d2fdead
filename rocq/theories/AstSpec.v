(** What users of the generated AST rely on. *)
From Coq Require Import List NArith PeanoNat Bool Permutation.
From Verif Require Import AstModel.
Import ListNotations.

(** The kinds of the nodes a parser creates (code-gen 597-717, 824): never the
    bare kind of an operator symbol. *)
Definition created (s : symbol) : list text :=
  let c := capitalized (sname s) in
  if soper s then [t_prefix ++ c; t_postfix ++ c; t_binary ++ c; t_ternary ++ c] else [c].
(** No class comes before its base class, if that is generated, too. *)
Definition bases_first (l : list (text * text)) : Prop :=
  forall before name base after, l = before ++ (name, base) :: after -> In base (map fst l) -> In base (map fst before).
(** The classes of a symbol. *)
Definition classes (s : symbol) : list text := map fst (structs s).
