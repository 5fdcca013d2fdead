(** Copies of items, and the list operator that needs them: CloneTree
    (/repo/src/kdev-pg-clone-tree.cpp) and postfix_item
    (/repo/src/kdev-pg-parser.yy 528-537).  Every node has an address; texts are
    numbers. *)
From Coq Require Import List PeanoNat Bool.
Import ListNotations.

Inductive item :=
| IZero (a : nat)
| ISym (a : nat)
| ITerm (a : nat)
| INon (a s args : nat)
| IInl (a s : nat)
| IPlus (a : nat) (i : item)
| IStar (a : nat) (i : item)
| IAct (a : nat) (i : option item) (code : nat)
| IAlt (a : nat) (l r : item)
| ICons (a : nat) (l r : item)
| IEvolve (a : nat) (i : item) (s decls code : nat)
| ITry (a : nat) (t : item) (c : option item)
| IAnn (a : nat) (i : item) (decl : nat)
| ICond (a : nat) (i : item) (code : nat)
| IOper (a : nat).

(** mTemps and the next free address. *)
Record cstate := { temps : list item; fresh : nat }.
Definition push (i : item) (st : cstate) : cstate := {| temps := i :: temps st; fresh := fresh st |}.
(** createNode and push. *)
Definition make (f : nat -> item) (st : cstate) : cstate := {| temps := f (fresh st) :: temps st; fresh := S (fresh st) |}.
(** mTemps.top(); mTemps.pop().  [None]: the stack is empty, behaviour undefined. *)
Definition pop (st : option cstate) (k : item -> cstate -> option cstate) : option cstate :=
  match st with
  | Some {| temps := i :: t; fresh := n |} => k i {| temps := t; fresh := n |}
  | _ => None
  end.
(** The visit methods, 13-146.  visitNode does nothing for a null pointer
    (kdev-pg-visitor.h).  There is no visitCondition: the one of DefaultVisitor
    (kdev-pg-default-visitor.cpp 91-94) visits the item. *)
Fixpoint visit (i : item) (st : cstate) : option cstate :=
  match i with
  | IZero _ | ISym _ | ITerm _ | IOper _ => Some (push i st)
  | INon _ s args => Some (make (fun a => INon a s args) st)
  | IInl _ s => Some (make (fun a => IInl a s) st)
  | IPlus _ j => pop (visit j st) (fun j st => Some (make (fun a => IPlus a j) st))
  | IStar _ j => pop (visit j st) (fun j st => Some (make (fun a => IStar a j) st))
  | IAct _ None code => pop (Some st) (fun j st => Some (make (fun a => IAct a (Some j) code) st))
  | IAct _ (Some j) code => pop (visit j st) (fun j st => Some (make (fun a => IAct a (Some j) code) st))
  | IAlt _ l r => pop (visit l st) (fun l st => pop (visit r st) (fun r st => Some (make (fun a => IAlt a l r) st)))
  | ICons _ l r => pop (visit l st) (fun l st => pop (visit r st) (fun r st => Some (make (fun a => ICons a l r) st)))
  | IEvolve _ j s decls code => pop (visit j st) (fun j st => Some (make (fun a => IEvolve a j s decls code) st))
  | ITry _ t None => pop (visit t st) (fun t st => Some (make (fun a => ITry a t None) st))
  | ITry _ t (Some c) => pop (visit t st) (fun t st => pop (visit c st) (fun c st => Some (make (fun a => ITry a t (Some c)) st)))
  | IAnn _ j decl => pop (visit j st) (fun j st => Some (make (fun a => IAnn a j decl) st))
  | ICond _ j _ => visit j st
  end.
(** clone(), 148-156: the copy and the next free address. *)
Definition clone (i : item) (n : nat) : option (item * nat) :=
  match visit i {| temps := []; fresh := n |} with
  | Some {| temps := j :: _; fresh := n |} => Some (j, n)
  | _ => None
  end.
(** postfix_item '@' primary_item, parser.yy 530-534.  The order in which the two
    copies are made is up to the compiler; here from left to right. *)
Definition list_of (x y : item) (n : nat) : option (item * nat) :=
  match clone y n with
  | None => None
  | Some (y', n) =>
    match clone x n with
    | None => None
    | Some (x', n) => Some (ICons (n + 2) x (IStar (n + 1) (ICons n y' x')), n + 3)
    end
  end.
