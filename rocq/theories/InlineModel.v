(** InlineChecker (/repo/src/kdev-pg-inline-checker.cpp, kdev-pg-main.cpp
    364-368). *)
From Coq Require Import List NArith PeanoNat Bool.
From Verif Require Import Base ItemModel.
Import ListNotations.

(** mSymbol of the inlined non-terminals; mVisited; the numbers of the two kinds
    of errors reported. *)
Record cstate := CState { csym : nat -> option text; cvisited : list nat; ccyclic : nat; coper : nat }.
Definition c_visit (n : nat) (c : cstate) : cstate := CState (csym c) (n :: cvisited c) (ccyclic c) (coper c).
Definition c_cyclic (c : cstate) : cstate := CState (csym c) (cvisited c) (S (ccyclic c)) (coper c).
Definition c_oper (c : cstate) : cstate := CState (csym c) (cvisited c) (ccyclic c) (S (coper c)).
Definition c_null (n : nat) (c : cstate) : cstate :=
  CState (fun m => if Nat.eqb m n then None else csym c m) (cvisited c) (ccyclic c) (coper c).

Section G.
Variable g : grammar.
(** The outcome: the state, and the SymbolItem thrown if any. *)
Definition outcome := (cstate * option text)%type.
Section I.
Variable inl : nat -> cstate -> option outcome.
Fixpoint check_item (i : item) (c : cstate) : option outcome :=
  match i with
  | IZero | IAtom _ | ICode | IAnn _ _ _ _ | IOper _ => Some (c, None)
  | IInl n => inl n c
  | IPlus i | IStar i | IAct i | ICond i | ITry i => check_item i c
  | IAlt l r | ICons l r | IRollback l r =>
    do p <- check_item l c;
    match snd p with None => check_item r (fst p) | Some _ => Some p end
  end.
End I.
(** visitInlinedNonTerminal, 28-62.  [cur] is mCurrentlyVisiting: what is
    inserted at 47 is removed at 54 and 61, and was not in it before (32), so it is
    handed down.  [None]: out of fuel. *)
Fixpoint check (fuel : nat) (cur : list text) (i : item) (c : cstate) : option outcome :=
  check_item (fun n c =>
    match csym c n with
    | None => Some (c, None)
    | Some s =>
      if tmem s cur then Some (c_cyclic c, Some s)
      else if existsb (Nat.eqb n) (cvisited c) then Some (c, None)
      else
        let c := if operator_symbol g s then c_oper c else c in
        let c := c_visit n c in
        match search g s with
        | None => Some (c, None)
        | Some r =>
          match fuel with
          | 0 => None
          | S f =>
            do p <- check f (s :: cur) (ritem r) c;
            match snd p with
            | None => Some p
            | Some t => if teq s t then Some (c_null n (fst p), None) else Some p
            end
          end
        end
    end) i c.
(** main.cpp 364-368: a new InlineChecker for every rule; mVisited is empty, so
    operator() always calls visitEvolve.  The outer [None]: out of fuel; the inner
    one: an exception nobody catches, std::terminate. *)
Fixpoint check_rules (fuel : nat) (l : list rule) (c : cstate) : option (option cstate) :=
  match l with
  | [] => Some (Some c)
  | r :: l =>
    do p <- check fuel [] (ritem r) (CState (csym c) [] (ccyclic c) (coper c));
    match snd p with None => check_rules fuel l (fst p) | Some _ => Some None end
  end.
Definition inline_check (fuel : nat) : option (option cstate) := check_rules fuel (rules g) (CState (target g) [] 0 0).
(** The grammar that the rest of the tool sees. *)
Definition after (c : cstate) : grammar := Grammar (rules g) (csym c).
End G.
