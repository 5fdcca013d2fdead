(** The syntax tree of a grammar with its names and declarations, and the
    traversal of DefaultVisitor (/repo/src/kdev-pg-ast.h 42-330,
    kdev-pg-default-visitor.cpp, kdev-pg-default-visitor.h 16-21). *)
From Coq Require Import List NArith Bool.
From Verif Require Import Base.
Import ListNotations.

(** Names are texts; a symbol is given by its name (World::symbols). *)
Definition text := list N.
Definition teq (a b : text) : bool := if list_eq_dec N.eq_dec a b then true else false.
Definition tmem (a : text) (l : list text) : bool := existsb (teq a) l.

(** VariableDeclarationItem, ast.h 296-330, without mNext (lists are used). *)
Inductive vkind := VToken | VNode | VVariable.
Record decl := Decl {
  dname : text;
  dmember : bool;      (* StorageAstMember; otherwise StorageTemporary *)
  dargument : bool;    (* DeclarationArgument; otherwise DeclarationLocal *)
  dkind : vkind;
  dseq : bool;         (* mIsSequence *)
  dtype : text         (* mType *)
}.

(** primary_atom of parser.yy 484-487. *)
Inductive atom := ATerm (t : text) | ANon (s : text).

(** ast.h 62-295.  Actions, conditions and arguments: the code is left out.
    An inlined non-terminal is a node with a number of its own: its mSymbol can
    change.  IOper: an OperatorItem, with its base.  Plus, Star and the others are
    the nodes of the same name; IZero is globalSystem.zero(). *)
Inductive item :=
| IZero
| IAtom (a : atom)
| IInl (n : nat)
| IPlus (i : item)
| IStar (i : item)
| ICode
| IAct (i : item)
| IAlt (l r : item)
| ICons (l r : item)
| ITry (t : item)                 (* try/recover *)
| IRollback (t c : item)          (* try/rollback, catch *)
| IAnn (x : text) (member seq : bool) (a : atom)
| ICond (i : item)
| IOper (base : text).

(** EvolveItem. *)
Record rule := Rule { rsym : text; rdecls : list decl; ritem : item }.

(** globalSystem.rules in the order of finishedParsing(), and the mSymbol of
    every inlined non-terminal; [None] is nullptr. *)
Record grammar := Grammar { rules : list rule; target : nat -> option text }.

(** The VariableDeclarationItem that annotation() makes, kdev-pg.cpp 119-150. *)
Definition ann_decl (x : text) (member seq : bool) (a : atom) : decl :=
  match a with
  | ATerm t => Decl x member false VToken seq t
  | ANon s => Decl x member false VNode seq s
  end.

Section G.
Variable g : grammar.
(** searchRule, kdev-pg.h 278-284; the binary search is in DeclModel. *)
Definition search (s : text) : option rule := find (fun r => teq (rsym r) s) (rules g).
(** The rules that env has for a symbol, in the order of the QMultiMap: what was
    inserted last comes first (InitializeEnvironment, kdev-pg-environment.h 16-31,
    is applied to the rules in order, kdev-pg-main.cpp 370-374). *)
Definition env (s : text) : list rule := rev (filter (fun r => teq (rsym r) s) (rules g)).
(** isOperatorSymbol, kdev-pg.cpp. *)
Definition is_operator (r : rule) : bool := match ritem r with IOper _ => true | _ => false end.
Definition operator_symbol (s : text) : bool := match search s with Some r => is_operator r | None => false end.

(** ** DefaultVisitor
    The calls of visitVariableDeclaration and visitOperator, in order.  A symbol
    visited through a non-terminal is left out, visitSymbol being empty.
    [follow]: visitVariableDeclaration calls the one of DefaultVisitor, and so
    goes on to mNext (default-visitor.cpp 98-101). *)
Inductive event := EDecl (d : decl) | EOper (base : text).
Variable follow : bool.
Definition chain (l : list decl) : list event := map EDecl (if follow then l else match l with [] => [] | d :: _ => [d] end).
Section W.
Variable inl : nat -> option (list event).
Fixpoint walk_item (i : item) : option (list event) :=
  match i with
  | IZero | IAtom _ | ICode => Some []
  | IInl n => inl n
  | IPlus i | IStar i | IAct i | ICond i | ITry i => walk_item i
  | IAlt l r | ICons l r | IRollback l r => do a <- walk_item l; do b <- walk_item r; Some (a ++ b)
  | IAnn x m s a => Some [EDecl (ann_decl x m s a)]
  | IOper b => Some [EOper b]
  end.
End W.
(** visitInlinedNonTerminal goes to the rule, default-visitor.h 19-21; searchRule
    finds nothing for nullptr.  [fuel] bounds the depth of inlining; [None]: the
    recursion does not end within it. *)
Fixpoint walk (fuel : nat) (i : item) : option (list event) :=
  walk_item (fun n =>
    match target g n with
    | None => Some []
    | Some s =>
      match search s with
      | None => Some []
      | Some r => match fuel with 0 => None | S f => do l <- walk f (ritem r); Some (chain (rdecls r) ++ l) end
      end
    end) i.
(** visitEvolve, 68-73. *)
Definition walk_rule (fuel : nat) (r : rule) : option (list event) :=
  do l <- walk fuel (ritem r); Some (chain (rdecls r) ++ l).
End G.
