(** The AST that the functions of ordinary symbols build: the same text as in
    ParserModel together with what it stores (/repo/src/kdev-pg-code-gen.cpp
    79-128, 438-560, 804-880; snoc: kdev-pg-list.h).  Operator expressions have a
    model of their own, OperatorModel; rules with arguments are left out. *)
From Coq Require Import List Bool PeanoNat.
From Verif Require Import Base GrammarModel ParserModel.
Import ListNotations.

(** A variable of a rule: name and mIsSequence ([x] and [xSequence] are two
    different variables, 1029-1035). *)
Definition var := (id * bool)%type.
Definition var_eqb (x y : var) : bool := Nat.eqb (fst x) (fst y) && Bool.eqb (snd x) (snd y).
(** What a variable holds: tokens, given by their position, and nodes.  A node has
    the symbol it was made for, startToken, endToken + 1 and its variables; what a
    variable holds is a list, for one that is no sequence of at most one element
    (empty: never assigned). *)
Inductive val := VTok (p : nat) | VNode (s : id) (lo hi : nat) (vars : list (var * list val)).
Definition store := list (var * list val).
Fixpoint lookup (x : var) (vs : store) : list val :=
  match vs with [] => [] | (y, l) :: vs => if var_eqb x y then l else lookup x vs end.
(** [x = v], 463-466 and 552-553; [xSequence = snoc(xSequence, v, memoryPool)],
    449-460 and 543-549. *)
Definition assign (x : var) (v : val) (vs : store) : store := (x, if snd x then lookup x vs ++ [v] else [v]) :: vs.

Section G.
Variable g : grammar.
Variable first follow : table.
Variable tok : nat -> id.
Variable cond : nat -> bool.
(** mDeclaration of an annotation. *)
Variable decl : id -> var.

(** The state of the parser and the variables of the function that is running. *)
Definition tstate := (pstate * store)%type.
Inductive toutcome := TDone (st : tstate) | TFail (st : tstate) | TOut | TOdd.
Definition tnext (o : toutcome) (k : tstate -> toutcome) : toutcome := match o with TDone st => k st | _ => o end.
Definition tof (o : outcome) (vs : store) : toutcome := match o with Done st => TDone (st, vs) | Fail st => TFail (st, vs) | Out => TOut | Odd => TOdd end.
(** The end of a function: the caller of [parseS(&node)] gets the node made at its
    beginning; 819, 870-871.  Its variables are those at the end. *)
Definition returns (caught : bool) (s : id) (st : pstate) (vs : store) (o : toutcome) (k : pstate -> val -> toutcome) : toutcome :=
  match o with
  | TDone (st', ws) => k st' (VNode s (pidx st - 1) (pidx st' - 1) ws)
  | TFail (st', _) => TFail (report caught st', vs)
  | _ => o
  end.

Fixpoint trun (fuel : nat) (cur : id) (caught : bool) (j : job) (ts : tstate) : toutcome :=
  match fuel with
  | 0 => TOut
  | S f =>
    let (st, vs) := ts in
    match j with
    | Item n =>
      match kind g n with
      | NZero => TDone (st, vs)
      | NSym | NOther | NEvolve _ _ => TOdd
      | NTerm => if Nat.eqb (ptok st) n then TDone (yylex tok st, vs) else TFail (report caught st, vs)
      | NNon s => returns caught s st vs (trun f s false (Rules (env g s)) (st, [])) (fun st' _ => TDone (st', vs))
      | NInl s =>
        match search_rule g s with
        | Some e =>
          match kind g e with
          | NEvolve i s' =>
            let (go, st) := guarded g cond (rule_test g first follow e i s' (ptok st)) i st in
            if go then tnext (trun f cur caught (Item i) (st, vs)) (fun ts =>
              if mem s' (gstart g) && negb (Nat.eqb (ptok (fst ts)) (geof g)) then TFail ts else TDone ts)
            else TDone (st, vs)
          | _ => TOdd
          end
        | None => TOdd
        end
      | NPlus i _ _ => tnext (trun f cur caught (Item i) (st, vs)) (fun ts => if test g first n (ptok (fst ts)) then trun f cur caught (Item n) ts else TDone ts)
      | NStar i _ _ => if test g first n (ptok st) then tnext (trun f cur caught (Item i) (st, vs)) (trun f cur caught (Item n)) else TDone (st, vs)
      | NAct None => TDone (st, vs)
      | NAct (Some i) => trun f cur caught (Item i) (st, vs)
      | NCond i => trun f cur caught (Item i) (st, vs)
      | NAlt l r =>
        match flatten g f [l; r] with
        | Some ns => trun f cur caught (Branches ns) (st, vs)
        | None => TOut
        end
      | NCons l r => tnext (trun f cur caught (Item l) (st, vs)) (trun f cur caught (Item r))
      | NTry t (Some c) =>
        let start := pidx st - 1 in
        match trun f cur true (Item t) (block true st, vs) with
        | TDone (st', vs) => TDone (block (pblock st) st', vs)
        | TFail (st', vs) => trun f cur caught (Item c) (rewind tok start (block (pblock st) st'), vs)
        | o => o
        end
      | NTry t None =>
        let start := pidx st - 1 in
        match trun f cur true (Item t) (st, vs) with
        | TFail (st', vs) =>
          tof (skip g follow tok f n (if Nat.eqb start (pidx st' - 1) && negb (Nat.eqb (ptok st') (geof g)) then yylex tok st' else st')) vs
        | o => o
        end
      | NAnn i =>
        match f with
        | 0 => match kind g i with NTerm | NNon _ => TOut | _ => TOdd end
        | S f =>
          match kind g i with
          | NTerm => if Nat.eqb (ptok st) i then TDone (yylex tok st, assign (decl n) (VTok (pidx st - 1)) vs) else TFail (report caught st, vs)
          | NNon s => returns caught s st vs (trun f s false (Rules (env g s)) (st, [])) (fun st' v => TDone (st', assign (decl n) v vs))
          | _ => TOdd
          end
        end
      | NOper _ _ _ => TOdd
      end
    | Rules [] => TFail (st, vs)
    | Rules (e :: es) =>
      match kind g e with
      | NEvolve i s =>
        let (go, st) := guarded g cond (rule_test g first follow e i s (ptok st)) i st in
        if go then tnext (trun f cur caught (Item i) (st, vs)) (fun ts =>
          if mem s (gstart g) && negb (Nat.eqb (ptok (fst ts)) (geof g)) then TFail ts else TDone ts)
        else trun f cur caught (Rules es) (st, vs)
      | _ => trun f cur caught (Rules es) (st, vs)
      end
    | Branches [] => TFail (st, vs)
    | Branches (n :: ns) =>
      let (go, st) := guarded g cond (test g first n (ptok st)) n st in
      if go then trun f cur caught (Item n) (st, vs) else trun f cur caught (Branches ns) (st, vs)
    | Operand _ _ _ | Operator _ _ _ => TOdd
    end
  end.

(** parseS(&node) at the beginning of the input: the node. *)
Definition tparse (fuel : nat) (s : id) : toutcome := trun fuel s false (Rules (env g s)) (start_state tok, []).
Definition root (s : id) (ts : tstate) : val := VNode s 0 (pidx (fst ts) - 1) (snd ts).
End G.
