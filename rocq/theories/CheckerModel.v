(** The checks of the grammar (/repo/src/kdev-pg-checker.cpp,
    kdev-pg-checker.h, kdev-pg-default-visitor.cpp, kdev-pg.cpp 375-403). *)
From Coq Require Import List Bool PeanoNat.
From Verif Require Import Base GrammarModel ParserModel.
Import ListNotations.

(** What a check does: print warnings about some nodes, read through a null
    pointer, or ([Deep]) run out of fuel. *)
Inductive checked := Warn (about : list id) | Null | Deep.
Definition also (a b : checked) : checked :=
  match a with Warn x => match b with Warn y => Warn (x ++ y) | _ => b end | _ => a end.
Definition warn_if (c : bool) (n : id) : checked := Warn (if c then [n] else []).

Section G.
Variable g : grammar.
Variable first follow : table.

(** isZero, kdev-pg.cpp 375-403; [None]: nodeCast of a null pointer
    (kdev-pg-ast.h: nodeCast reads node->kind).  The fuel [S n] is enough for
    items: their parts come before them. *)
Fixpoint zero_item (fuel : nat) (n : id) : option bool :=
  match fuel with
  | 0 => Some false
  | S f =>
    match kind g n with
    | NAct None => None
    | NAct (Some i) | NCond i | NAnn i | NPlus i _ _ | NStar i _ _ => zero_item f i
    | NZero => Some true
    | _ => Some false
    end
  end.
Definition meet (a b : id -> bool) : bool := existsb (fun x => a x && b x) (seq 0 (size g)).

(** FirstFirstConflictChecker, checker.cpp 27-98: nothing is done in inlined
    rules and in operators. *)
Fixpoint first_first (fuel : nat) (n : id) : checked :=
  match fuel with
  | 0 => Deep
  | S f =>
    match kind g n with
    | NPlus i _ _ | NStar i _ _ | NAct (Some i) | NAnn i | NCond i | NTry i None => first_first f i
    | NCons l r | NTry l (Some r) => also (first_first f l) (first_first f r)
    | NAlt l r => also (also (first_first f l) (first_first f r)) (warn_if (meet (first l) (first r)) n)
    | NEvolve i s =>
      fold_left also (map (fun e => warn_if (negb (Nat.eqb n e) && meet (first e) (first n)) n) (env g s)) (first_first f i)
    | _ => Warn []
    end
  end.
(** FirstFollowConflictChecker, 100-152 and 232-276. *)
Fixpoint first_follow (fuel : nat) (n : id) : checked :=
  match fuel with
  | 0 => Deep
  | S f =>
    let clash := meet (first n) (follow n) in
    match kind g n with
    | NAct (Some i) | NAnn i | NCond i | NTry i None | NEvolve i _ => first_follow f i
    | NTry l (Some r) => also (first_follow f l) (first_follow f r)
    | NCons l r => also (also (first_follow f l) (first_follow f r)) (warn_if (eps g first n && clash) n)
    | NAlt l r =>
      also (also (first_follow f l) (first_follow f r))
        match zero_item (S r) r with
        | None => Null
        | Some true => Warn []
        | Some false => warn_if (eps g first n && clash) n
        end
    | NPlus i _ _ => also (first_follow f i) (warn_if (eps g first n && clash) n)
    | NStar i _ _ => also (first_follow f i) (warn_if clash n)
    | _ => Warn []
    end
  end.
(** EmptyFirstChecker, 345-371: the symbols of the rules. *)
Definition empty_first (e : id) : checked :=
  match kind g e with NEvolve _ s => warn_if (negb (existsb (first s) (seq 0 (size g)))) e | _ => Warn [] end.
(** EmptyOperatorChecker, 373-385: the rules that are operators. *)
Definition empty_operator (e : id) : checked :=
  match kind g e with
  | NEvolve i _ => match kind g i with NOper b _ _ => warn_if (eps g first (base_symbol g b)) e | _ => Warn [] end
  | _ => Warn []
  end.
(** UndefinedSymbolChecker, 278-294: a symbol without rules. *)
Fixpoint undefined (fuel : nat) (n : id) : checked :=
  match fuel with
  | 0 => Deep
  | S f =>
    match kind g n with
    | NPlus i _ _ | NStar i _ _ | NAct (Some i) | NAnn i | NCond i | NTry i None => undefined f i
    | NCons l r | NTry l (Some r) | NAlt l r => also (undefined f l) (undefined f r)
    | NNon s | NInl s => warn_if (Nat.eqb (length (env g s)) 0) n
    | NEvolve i s => also (undefined f i) (warn_if (Nat.eqb (length (env g s)) 0) n)
    | _ => Warn []
    end
  end.
(** The tool has nothing to say about the grammar: main.cpp 372-418. *)
Definition says (c : id -> checked) : bool := forallb (fun e => match c e with Warn [] => true | _ => false end) (grules g).
Definition depth : nat := S (size g).
Definition no_conflict : bool := says (first_follow depth) && says (first_first depth).
Definition no_error : bool := says empty_first && says empty_operator && says (undefined depth).
End G.
