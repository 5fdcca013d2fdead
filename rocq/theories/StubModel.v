(** The functions of the generated visitor classes, as they are declared and
    defined: GenerateVisitor (/repo/src/kdev-pg-visitor-gen.cpp 15-51),
    GenerateDefaultVisitor and GenerateDefaultVisitorRule
    (kdev-pg-default-visitor-gen.cpp 15-49), GenerateNewVisitor
    (kdev-pg-new-visitor-gen.cpp 15-31), GenerateDefaultVisitorBitsRule
    (kdev-pg-default-visitor-bits-gen.cpp 15-62), GenerateNewVisitorBitsRule
    (kdev-pg-new-visitor-bits-gen.cpp 14-44).  Bodies are left out.  Symbols come
    in the order of globalSystem.symbols in all of them. *)
From Coq Require Import List NArith Bool.
From Verif Require Import AstModel.
Import ListNotations.
Local Open Scope N_scope.

(** A symbol, and whether HasMemberNodes (default-visitor-bits-gen.cpp 102-135)
    finds a member in its rules; for operators it always does. *)
Record vsymbol := VS { vsym : symbol; vmember : bool }.
Definition has_members (s : vsymbol) : bool := if soper (vsym s) then true else vmember s.
(** A function as class and X, for class::visitX with a pointer to XAst. *)
Definition func := (text * text)%type.
Definition op_names (c : text) : list text := [t_prefix ++ c; t_postfix ++ c; t_binary ++ c; t_ternary ++ c].

(** visitor-gen.cpp 32-48: virtual functions with bodies, in the class
    Visitor. *)
Definition base_functions (l : list vsymbol) : list text :=
  flat_map (fun s => let c := capitalized (sname (vsym s)) in if soper (vsym s) then op_names c else [c]) l.
(** default-visitor-gen.cpp 15-29, 31-47; new-visitor-gen.cpp 15-29 with the
    same GenerateDefaultVisitorRule. *)
Definition declare (class : text) (s : vsymbol) : list func :=
  let c := capitalized (sname (vsym s)) in
  if soper (vsym s) then [(class, t_prefix ++ c); (class, t_postfix ++ c); (class, t_binary ++ c); (class, t_ternary ++ c)] else [(class, c)].
Definition declared (class : text) (l : list vsymbol) : list func := flat_map (declare class) l.
(** default-visitor-bits-gen.cpp 26-61: the member name, then the macro's
    argument. *)
Definition define (class : text) (s : vsymbol) : list func :=
  let o ast := (class, ast) in
  let c := capitalized (sname (vsym s)) in
  if soper (vsym s) then [o (t_prefix ++ c); o (t_postfix ++ c); o (t_binary ++ c); o (t_ternary ++ c)] else [o c].
Definition defined (class : text) (l : list vsymbol) : list func := flat_map (define class) l.
(** new-visitor-bits-gen.cpp 20-42: the macro's argument is called name, as the
    member is, and stands for both. *)
Definition define_new (class : text) (s : vsymbol) : list func :=
  let o name := (name, name) in
  let c := capitalized (sname (vsym s)) in
  if soper (vsym s) then [o (t_prefix ++ c); o (t_postfix ++ c); o (t_binary ++ c); o (t_ternary ++ c)]
  else if has_members s then [o c] else [].
Definition defined_new (class : text) (l : list vsymbol) : list func := flat_map (define_new class) l.
