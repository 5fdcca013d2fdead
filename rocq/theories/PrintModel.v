(** How the generator prints rules: in the file kdev-pg-rules (option --rules) and in the
    reports of conflicts (/repo/src/kdev-pg-pretty-printer.cpp, over
    kdev-pg-default-visitor.cpp and kdev-pg-visitor.h 22-26). *)
From Coq Require Import List Ascii String Bool PeanoNat.
From Verif Require Import Base FlexModel GramModel.
Import ListNotations.

(** The number of nodes: enough fuel for what follows (print_total). *)
Fixpoint item_nodes (i : item) : nat :=
  S match i with
    | IPlus j | IStar j | IAction j _ | ITryRecover j | IAnnotation _ _ _ j | ICondition _ j | IEvolve j _ _ _ => item_nodes j
    | IAlternative j l | ICons j l | ITryRollback j l => item_nodes j + item_nodes l
    | _ => 0
    end.

(** visitAlternative, 52-70: top_level_nodes, from the stack working_list.  [None]: out of
    fuel. *)
Fixpoint top_level (fuel : nat) (stack found : list item) : option (list item) :=
  match fuel with
  | 0 => None
  | S fuel =>
    match stack with
    | [] => Some found
    | IAlternative l r :: stack => top_level fuel (l :: r :: stack) found
    | n :: stack => top_level fuel stack (found ++ [n])
    end
  end.

Fixpoint all_of {A} (l : list (option A)) : option (list A) :=
  match l with
  | [] => Some []
  | x :: l => do x <- x; do l <- all_of l; Some (x :: l)
  end.
(** 72-84. *)
Fixpoint barred (l : list text) : text :=
  match l with
  | [] => []
  | [x] => x
  | x :: l => x ++ chars " | " ++ barred l
  end.

(** PrettyPrinter.  Conditions are not overridden: DefaultVisitor visits their item
    (default-visitor.cpp 93-96).  Operators are not overridden either: nothing is printed
    (103-106).  An ActionItem without an item: visitNode does nothing for nullptr.
    IBad is not a node. *)
Fixpoint print_ (fuel : nat) (i : item) : option text :=
  match fuel with
  | 0 => None
  | S fuel =>
    match i with
    | IZero => Some (chars "0")                                                 (* 19-23 *)
    | IPlus j => do s <- print_ fuel j; Some (chars "(" ++ s ++ chars ")" ++ chars "+")   (* 25-31 *)
    | IStar j => do s <- print_ fuel j; Some (chars "(" ++ s ++ chars ")" ++ chars "*")   (* 33-39 *)
    | IAction j _ => print_ fuel j                                              (* 46-49 *)
    | ICode _ => Some []
    | IAlternative l r =>                                                       (* 51-86 *)
      do ns <- top_level (item_nodes i) [l; r] [];
      do ts <- all_of (map (print_ fuel) ns);
      Some (chars "(" ++ barred ts ++ chars ")")
    | ICons l r => do s <- print_ fuel l; do s' <- print_ fuel r; Some (s ++ chars " " ++ s')   (* 88-93 *)
    | IEvolve j x _ _ => do s <- print_ fuel j; Some (s ++ chars " -> " ++ x)     (* 95-100 *)
    | ITryRecover j => do s <- print_ fuel j; Some (chars "try/" ++ chars "recover" ++ chars "(" ++ s ++ chars ")")   (* 102-114 *)
    | ITryRollback j l =>
      do s <- print_ fuel j; do s' <- print_ fuel l;
      Some (chars "try/" ++ chars "rollback" ++ chars "(" ++ s ++ chars ")" ++ chars " catch(" ++ s' ++ chars ")")
    | ITerminal x _ => Some x                                                   (* 122-125 *)
    | INonTerminal x _ | IInline x => Some x                                    (* 127-135, 41-44 *)
    | IAnnotation x q m j =>                                                    (* 137-145 *)
      do s <- print_ fuel j;
      Some ((if q then chars "#" else []) ++ x ++ (if m then chars "=" else chars ":") ++ s)
    | ICondition _ j => print_ fuel j
    | IOperator _ _ _ => Some []
    | IBad => None
    end
  end.
Definition print (i : item) : option text := print_ (S (item_nodes i)) i.
