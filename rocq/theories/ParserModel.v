(** The parser that CodeGenerator writes (/repo/src/kdev-pg-code-gen.cpp
    21-890, kdev-pg-default-visitor.cpp), as what it does on a token stream.
    The text of the generated functions and its execution are taken in one
    step: [run] follows the generator through the item and does what the text
    written there does. *)
From Coq Require Import List Bool PeanoNat.
From Verif Require Import Base GrammarModel.
Import ListNotations.

(** What the generated functions work on: tokenStream->index(), yytoken,
    mBlockErrors (generated class, code-gen.cpp 1063-1110), how many conditions
    written by the user have been asked so far, and how many times
    expectedToken() and expectedSymbol() have been called.  Code blocks are
    taken not to touch any of it; trees are left out. *)
Record pstate := PS { pidx : nat; ptok : id; pblock : bool; pclock : nat; perr : nat }.
(** [Done]: the text runs through; [Fail]: it leaves by return false or by
    goto to the innermost __catch label; [Out]: the fuel is gone; [Odd]: the
    generator stops at an assertion or a null pointer, or ternary operators are
    met, which need the stack of OperatorModel. *)
Inductive outcome := Done (st : pstate) | Fail (st : pstate) | Out | Odd.
Definition next_do (o : outcome) (k : pstate -> outcome) : outcome := match o with Done st => k st | _ => o end.

(** code-gen.cpp 256-275: the operands of nested alternatives with a stack. *)
Fixpoint flatten (g : grammar) (fuel : nat) (work : list id) : option (list id) :=
  match fuel with
  | 0 => None
  | S f =>
    match work with
    | [] => Some []
    | n :: work =>
      match kind g n with
      | NAlt l r => flatten g f (l :: r :: work)
      | _ => do rest <- flatten g f work; Some (n :: rest)
      end
    end
  end.

Section G.
Variable g : grammar.
(** FIRST and FOLLOW. *)
Variable first follow : table.
(** The kind of the token at a position of the stream; reading a position again
    gives the same token (C01-C12). *)
Variable tok : nat -> id.
(** What the conditions written by the user yield, in the order they are
    asked. *)
Variable cond : nat -> bool.

(** yylex() and rewind(), code-gen.cpp 1085-1091. *)
Definition yylex (st : pstate) : pstate := PS (S (pidx st)) (tok (pidx st)) (pblock st) (pclock st) (perr st).
Definition rewind (k : nat) (st : pstate) : pstate := yylex (PS k (ptok st) (pblock st) (pclock st) (perr st)).
Definition block (b : bool) (st : pstate) : pstate := PS (pidx st) (ptok st) b (pclock st) (perr st).
Definition ask (st : pstate) : bool * pstate := (cond (pclock st), PS (pidx st) (ptok st) (pblock st) (S (pclock st)) (perr st)).
(** The calls of expectedToken and expectedSymbol; the guarded ones of 103-121
    and 133-147 ([caught]: mCurrentCatchId is not 0), and the one in 782-784. *)
Definition complain (st : pstate) : pstate := PS (pidx st) (ptok st) (pblock st) (pclock st) (S (perr st)).
Definition report (caught : bool) (st : pstate) : pstate := if caught || pblock st then st else complain st.
Definition called (caught : bool) (o : outcome) : outcome := match o with Fail st => Fail (report caught st) | _ => o end.

(** generateCondition, 40-61: nothing but the zero node means true; otherwise
    the terminals. *)
Definition trivial (s : id -> bool) : bool := forallb (fun x => negb (s x) || is_zero g x) (seq 0 (size g)).
Definition test_set (s : id -> bool) (y : id) : bool := trivial s || (is_term g y && s y).
(** generateTestCondition, 63-77. *)
Definition test (n y : id) : bool := if is_term g n then Nat.eqb y n else test_set (first n) y.
(** The condition at the beginning of a rule or branch: the condition of the
    user is looked at if the rest holds. *)
Definition is_cond (n : id) : bool := match kind g n with NCond _ => true | _ => false end.
Definition guarded (b : bool) (n : id) (st : pstate) : bool * pstate :=
  if b then if is_cond n then ask st else (true, st) else (false, st).
(** visitEvolve, 322-340. *)
Definition rule_test (e i s y : id) : bool := test e y || (eps g first i && test_set (follow s) y).
(** globalSystem.env (a QMultiMap filled in the order of the rules:
    kdev-pg-environment.h 25-28): the last one comes first. *)
Definition env (s : id) : list id := rev (filter (rule_of g s) (grules g)).

(** generateRecovery, 160-192: skip to a token of FOLLOW or the end. *)
Fixpoint skip (fuel : nat) (n : id) (st : pstate) : outcome :=
  match fuel with
  | 0 => Out
  | S f => if Nat.eqb (ptok st) (geof g) || (is_term g (ptok st) && follow n (ptok st)) then Done st else skip f n (yylex st)
  end.

(** Where the generated text is. *)
Inductive job :=
| Item (n : id)                           (* visitNode *)
| Rules (es : list id)                    (* GenerateParserRule::operator(), 829-852, and visitEvolve, 322-355 *)
| Branches (ns : list id)                 (* visitAlternative, 279-314 *)
| Operand (n b : id) (ops : list op)      (* visitOperator with expectOperator = false, 706-786 *)
| Operator (n b : id) (ops : list op).    (* ... = true, 577-705 *)

(** The first operator of a kind that the token and its condition let through:
    577-586 and alike.  Without a condition written, [cond] is to say true. *)
Fixpoint pick {A} (sel : op -> option (id * A)) (ops : list op) (st : pstate) : option A * pstate :=
  match ops with
  | [] => (None, st)
  | o :: ops =>
    match sel o with
    | Some (t, a) =>
      if Nat.eqb (ptok st) t then let (c, st1) := ask st in if c then (Some a, st1) else pick sel ops st1
      else pick sel ops st
    | None => pick sel ops st
    end
  end.
Definition sel_pre (o : op) : option (id * unit) := match o with OPre t => Some (t, tt) | _ => None end.
Definition sel_post (o : op) : option (id * unit) := match o with OPost t => Some (t, tt) | _ => None end.
Definition sel_bin (o : op) : option (id * unit) := match o with OBin t => Some (t, tt) | _ => None end.
Definition sel_tern (o : op) : option (id * id) := match o with OTern t u => Some (t, u) | _ => None end.
Definition sel_paren (o : op) : option (id * id) := match o with OParen t u => Some (t, u) | _ => None end.
(** The symbol of mBase: parser.yy 590-616. *)
Definition base_symbol (b : id) : id := match kind g b with NNon s => s | _ => b end.

(** [cur] is mSym, the symbol whose function is being written; [caught] says
    whether the text is inside a try block of that function. *)
Fixpoint run (fuel : nat) (cur : id) (caught : bool) (j : job) (st : pstate) : outcome :=
  match fuel with
  | 0 => Out
  | S f =>
    match j with
    | Item n =>
      match kind g n with
      | NZero => Done st                                                                  (* 202-206 *)
      | NSym | NOther | NEvolve _ _ => Odd                                                (* not written in rules *)
      | NTerm => if Nat.eqb (ptok st) n then Done (yylex st) else Fail (report caught st)               (* 130-153, 219-225 *)
      | NNon s => called caught (run f s false (Rules (env s)) st)                                              (* 79-128, 214-217 *)
      | NInl s =>                                                                         (* default-visitor.cpp 35-38 *)
        match search_rule g s with
        | Some e =>
          match kind g e with
          | NEvolve i s' =>
            let (go, st) := guarded (rule_test e i s' (ptok st)) i st in
            if go then next_do (run f cur caught (Item i) st) (fun st =>
              if mem s' (gstart g) && negb (Nat.eqb (ptok st) (geof g)) then Fail st else Done st)
            else Done st
          | _ => Odd
          end
        | None => Odd
        end
      | NPlus i _ _ => next_do (run f cur caught (Item i) st) (fun st => if test n (ptok st) then run f cur caught (Item n) st else Done st)   (* 227-234 *)
      | NStar i _ _ => if test n (ptok st) then next_do (run f cur caught (Item i) st) (run f cur caught (Item n)) else Done st                (* 236-243 *)
      | NAct None => Done st
      | NAct (Some i) => run f cur caught (Item i) st                                            (* 245-249 *)
      | NCond i => run f cur caught (Item i) st                                                  (* 251-254 *)
      | NAlt l r =>
        match flatten g f [l; r] with
        | Some ns => run f cur caught (Branches ns) st
        | None => Out
        end
      | NCons l r => next_do (run f cur caught (Item l) st) (run f cur caught (Item r))                 (* 317-320 *)
      | NTry t (Some c) =>                                                                (* 357-423 *)
        let start := pidx st - 1 in
        match run f cur true (Item t) (block true st) with
        | Done st' => Done (block (pblock st) st')
        | Fail st' => run f cur caught (Item c) (rewind start (block (pblock st) st'))
        | o => o
        end
      | NTry t None =>
        let start := pidx st - 1 in
        match run f cur true (Item t) st with
        | Fail st' =>
          skip f n (if Nat.eqb start (pidx st' - 1) && negb (Nat.eqb (ptok st') (geof g)) then yylex st' else st')
        | o => o
        end
      | NAnn i => match kind g i with NTerm | NNon _ => run f cur caught (Item i) st | _ => Odd end   (* 438-558 *)
      | NOper b ops _ => run f cur caught (Operand n b ops) st
      end
    | Rules [] => Fail st
    | Rules (e :: es) =>
      match kind g e with
      | NEvolve i s =>
        let (go, st) := guarded (rule_test e i s (ptok st)) i st in
        if go then next_do (run f cur caught (Item i) st) (fun st =>
          if mem s (gstart g) && negb (Nat.eqb (ptok st) (geof g)) then Fail st else Done st)
        else run f cur caught (Rules es) st
      | _ => run f cur caught (Rules es) st
      end
    | Branches [] => Fail st
    | Branches (n :: ns) =>
      let (go, st) := guarded (test n (ptok st)) n st in
      if go then run f cur caught (Item n) st else run f cur caught (Branches ns) st
    | Operand n b ops =>
      let (p, st) := pick sel_pre ops st in
      match p with
      | Some _ => run f cur caught (Operand n b ops) (yylex st)
      | None =>
        let (q, st) := pick sel_paren ops st in
        match q with
        | Some u =>
          let st := yylex st in
          if test cur (ptok st) then
            next_do (called caught (run f cur false (Rules (env cur)) st)) (fun st =>
              if Nat.eqb (ptok st) u then let (c, st) := ask st in if c then run f cur caught (Operator n b ops) (yylex st) else Fail st
              else Fail st)
          else Fail st
        | None =>
          if test (base_symbol b) (ptok st) then next_do (run f cur caught (Item b) st) (run f cur caught (Operator n b ops)) else Fail (complain st)
        end
      end
    | Operator n b ops =>
      let (p, st) := pick sel_post ops st in
      match p with
      | Some _ => run f cur caught (Operator n b ops) (yylex st)
      | None =>
        let (p, st) := pick sel_bin ops st in
        match p with
        | Some _ => run f cur caught (Operand n b ops) (yylex st)
        | None =>
          let (p, st) := pick sel_tern ops st in
          match p with Some _ => Odd | None => Done st end
        end
      end
    end
  end.

(** parseS() after setTokenStream() and a first yylex(). *)
Definition start_state : pstate := PS 1 (tok 0) false 0 0.
Definition parse (fuel : nat) (s : id) : outcome := run fuel s false (Rules (env s)) start_state.
End G.
