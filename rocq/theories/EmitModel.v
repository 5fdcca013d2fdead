(** The text of the parse functions that CodeGenerator writes (/repo/src/kdev-pg-code-gen.cpp
    21-890), as the tokens of CppSpec.  Unlike ParserModel, which says what the text does,
    this is the text.

    Written as [Do Tree]: everything about the tree and the code of the user (CppSpec); it is
    taken to be complete statements.  With AST; the tokens of a set come in another order
    (sorted by name there), which makes no difference to what is tested.  An operator without
    a condition is written as one whose condition always holds.  Not covered ([None]): ternary
    operators, and what the generator stops at. *)
From Coq Require Import List Bool PeanoNat.
From Verif Require Import Base GrammarModel ParserModel CppSpec.
Import ListNotations.

(** globalSystem.needStateManagement, parser.yy 490-499: some try item is in the grammar. *)
Definition needs_state (g : grammar) : bool := existsb (fun k => match k with NTry _ _ => true | _ => false end) (gnodes g).

Section G.
Variable g : grammar.
Variable first follow : table.
(** globalSystem.needStateManagement *)
Variable managed : bool.

(** generateConditionFromStrings, 21-38, with zerop false: yytoken == Token_A || ... *)
Fixpoint out_tokens (l : list id) : list token :=
  match l with
  | [] => []
  | [t] => [YyToken; EqEq; Kind t]
  | t :: l => [YyToken; EqEq; Kind t; OrOr] ++ out_tokens l
  end.
Definition terminals_in (s : id -> bool) : list id := filter (fun x => s x && is_term g x) (seq 0 (size g)).
(** generateCondition, 40-61 *)
Definition out_set (s : id -> bool) : list token := if trivial g s then [KTrue] else out_tokens (terminals_in s).
(** generateTestCondition, 63-77 *)
Definition out_test (n : id) : list token := if is_term g n then out_tokens [n] else out_set (first n).
(** With the condition of the user: 289-299, 326-342 *)
Definition out_guard (t : list token) (n : id) : list token := if is_cond g n then [LPar] ++ t ++ [RPar; AndAnd; LPar; User n; RPar] else t.
(** 322-340 *)
Definition out_rule_test (e i s : id) : list token :=
  out_guard (out_test e ++ if eps g first i then OrOr :: out_set (follow s) else []) i.

Definition tree : list token := [Do Tree; Semi].
Definition do_ (a : simple) : list token := [Do a; Semi].
Definition return_false : list token := [KReturn; KFalse; Semi].
(** 103-127, 133-152: what is done if it is not there.  [catch]: mCurrentCatchId. *)
Definition out_fail (catch : nat) : list token :=
  match catch with
  | 0 => [LBrace] ++ (if managed then [KIf; LPar; Not; Blocked; RPar; LBrace] ++ do_ Complain ++ [RBrace] else do_ Complain) ++ return_false ++ [RBrace]
  | k => [KGoto; Lab k; Semi]
  end.
(** generateParserCall, 79-128; 124: in braces. *)
Definition out_call (catch : nat) (s : id) : list token :=
  tree ++ [KIf; LPar; Not; Call s; RPar] ++ match catch with 0 => out_fail 0 | k => [LBrace] ++ out_fail k ++ [RBrace] end.
(** generateTokenTest, 130-153 *)
Definition out_token_test (catch : nat) (t : id) : list token := [KIf; LPar; YyToken; NotEq; Kind t; RPar] ++ out_fail catch.
(** generateRecovery, 160-192 *)
Fixpoint out_not_tokens (l : list id) : list token :=
  match l with [] => [] | t :: l => [AndAnd; YyToken; NotEq; Kind t] ++ out_not_tokens l end.
Definition out_recovery (n : id) (k : nat) : list token :=
  [KIf; LPar; AtMark k; AndAnd; YyToken; NotEq; Kind (geof g); RPar] ++ do_ Lex ++
  [KWhile; LPar; YyToken; NotEq; Kind (geof g)] ++ out_not_tokens (terminals_in (follow n)) ++ [RPar; LBrace] ++ do_ Lex ++ [RBrace].
(** 306-313 *)
Definition out_no_branch (catch : nat) : list token := match catch with 0 => return_false | k => [KGoto; Lab k; Semi] end.

(** visitOperator, 561-790.  One operator after expectOperator, 579-652 *)
Definition out_infix (o : op) : option (list token) :=
  match o with
  | OPost t => Some ([KIf; LPar; YyToken; EqEq; Kind t; AndAnd; User t; RPar; LBrace] ++ tree ++ do_ Lex ++ [RBrace])
  | OBin t => Some ([KIf; LPar; YyToken; EqEq; Kind t; AndAnd; User t; RPar; LBrace] ++ tree ++ do_ (Expect false) ++ do_ Lex ++ [RBrace])
  | _ => None
  end.
(** ... and before, 706-774 *)
Definition out_prefix (cur : id) (catch : nat) (o : op) : option (list token) :=
  match o with
  | OPre t => Some ([KIf; LPar; YyToken; EqEq; Kind t; AndAnd; User t; RPar; LBrace] ++ tree ++ do_ Lex ++ [RBrace])
  | OParen t u => Some (
      [KIf; LPar; YyToken; EqEq; Kind t; AndAnd; User t; RPar; LBrace] ++ do_ Lex ++ [KIf; LPar] ++ out_test cur ++ [RPar; LBrace] ++
      out_call catch cur ++ [KIf; LPar; Not; LPar; YyToken; EqEq; Kind u; AndAnd; User u; RPar; RPar; LBrace] ++ return_false ++ [RBrace] ++
      tree ++ do_ Lex ++ tree ++ do_ (Expect true) ++ [RBrace; KElse] ++ return_false ++ [RBrace])
  | _ => None
  end.
Definition choose {A} (f : op -> option A) (l : list op) : list A := flat_map (fun o => match f o with Some a => [a] | None => [] end) l.
(** mPost, mBin; mPre, mParen *)
Definition is_post (o : op) : bool := match o with OPost _ => true | _ => false end.
Definition is_bin (o : op) : bool := match o with OBin _ => true | _ => false end.
Definition is_tern (o : op) : bool := match o with OTern _ _ => true | _ => false end.
Definition is_pre (o : op) : bool := match o with OPre _ => true | _ => false end.
Definition is_paren (o : op) : bool := match o with OParen _ _ => true | _ => false end.
(** if ... else if ...: printElse *)
Fixpoint out_chain (l : list (list token)) : list token :=
  match l with [] => [] | [x] => x | x :: l => x ++ [KElse] ++ out_chain l end.
Definition out_operator (cur : id) (catch : nat) (b : id) (ops : list op) : option (list token) :=
  let infix := choose out_infix (filter is_post ops) ++ choose out_infix (filter is_bin ops) in
  let prefix := choose (out_prefix cur catch) (filter is_pre ops) ++ choose (out_prefix cur catch) (filter is_paren ops) in
  if existsb is_tern ops then None else match kind g b with NNon base => Some (
    do_ (Expect false) ++ [KWhile; LPar; KTrue; RPar; LBrace] ++
    [KIf; LPar; Expecting; RPar; LBrace] ++ out_chain infix ++ [KElse; KBreak; Semi] ++ [RBrace; KElse; LBrace] ++
    out_chain (prefix ++ [[KIf; LPar] ++ out_test (base) ++ [RPar; LBrace] ++ out_call catch (base) ++ tree ++ do_ (Expect true) ++ [RBrace]]) ++
    [KElse; LBrace] ++ do_ Complain ++ return_false ++ [RBrace; RBrace; RBrace]) | _ => None end.

(** visitEvolve, 322-355: one rule; [t]: the text of its item *)
Definition out_rule (e i s : id) (t : list token) : list token :=
  [KIf; LPar] ++ out_rule_test e i s ++ [RPar; LBrace] ++ tree ++ t ++
  (if mem s (gstart g) then [KIf; LPar; Kind (geof g); NotEq; YyToken; RPar; LBrace] ++ return_false ++ [RBrace] else []) ++ [RBrace].
(** visitAlternative, 279-314 *)
Fixpoint out_branches (catch : nat) (l : list (id * list token)) : list token :=
  match l with
  | [] => []
  | (n, t) :: l =>
    [KIf; LPar] ++ out_guard (out_test n) n ++ [RPar; LBrace] ++ t ++ [RBrace; KElse] ++
    match l with [] => [LBrace] ++ out_no_branch catch ++ [RBrace] | _ => out_branches catch l end
  end.

(** The visitors, 199-558.  [c] and the number in the result: tryCatch_counter. *)
Section V.
Variable cur : id.                       (* mSym *)
Variable rec : nat -> nat -> id -> option (list token * nat).
Fixpoint out_each (catch c : nat) (ns : list id) : option (list (id * list token) * nat) :=
  match ns with
  | [] => Some ([], c)
  | n :: ns => do p <- rec catch c n; do q <- out_each catch (snd p) ns; Some ((n, fst p) :: fst q, snd q)
  end.
End V.
Fixpoint out_item (fuel : nat) (cur : id) (catch c : nat) (n : id) : option (list token * nat) :=
  match fuel with
  | 0 => None
  | S f =>
    match kind g n with
    | NZero => Some ([], c)
    | NTerm => Some (out_token_test catch n ++ do_ Lex, c)
    | NNon s => Some (out_call catch s, c)
    | NInl s =>
      match search_rule g s with
      | Some e => match kind g e with NEvolve i s' => do p <- out_item f cur catch c i; Some (out_rule e i s' (fst p), snd p) | _ => None end
      | None => None
      end
    | NPlus i _ _ => do p <- out_item f cur catch c i; Some ([KDo; LBrace] ++ fst p ++ [RBrace; KWhile; LPar] ++ out_test n ++ [RPar; Semi], snd p)
    | NStar i _ _ => do p <- out_item f cur catch c i; Some ([KWhile; LPar] ++ out_test n ++ [RPar; LBrace] ++ fst p ++ [RBrace], snd p)
    | NAct None => Some (tree, c)
    | NAct (Some i) => do p <- out_item f cur catch c i; Some (fst p ++ tree, snd p)
    | NCond i => out_item f cur catch c i
    | NAlt l r => do ns <- flatten g f [l; r]; do p <- out_each (out_item f cur) catch c ns; Some (out_branches catch (fst p), snd p)
    | NCons l r => do p <- out_item f cur catch c l; do q <- out_item f cur catch (snd p) r; Some (fst p ++ fst q, snd q)
    | NTry t h =>
      let k := S c in
      do p <- out_item f cur k k t;
      do q <- match h with
              | Some h => do q <- out_item f cur catch (snd p) h; Some (do_ (Restore k) ++ do_ (Rewind k) ++ fst q, snd q)
              | None => Some (out_recovery n k, snd p)
              end;
      Some ((match h with Some _ => do_ (Save k) | None => [] end) ++ do_ (Mark k) ++ tree ++ [LBrace] ++ fst p ++ [RBrace] ++
            (match h with Some _ => do_ (Restore k) | None => [] end) ++ tree ++
            [KIf; LPar; KFalse; RPar; LBrace; Lab k; Colon] ++ tree ++ fst q ++ [RBrace], snd q)
    | NAnn i =>
      match kind g i with
      | NTerm => Some (out_token_test catch i ++ tree ++ do_ Lex, c)
      | NNon s => Some (out_call catch s ++ tree, c)
      | _ => None
      end
    | NOper b ops _ => do t <- out_operator cur catch b ops; Some (t, c)
    | NSym | NOther | NEvolve _ _ => None
    end
  end.

(** GenerateParserRule, 804-890: the body of parseS(), with its braces. *)
Fixpoint out_rules (fuel : nat) (cur : id) (c : nat) (es : list id) : option (list (list token) * nat) :=
  match es with
  | [] => Some ([], c)
  | e :: es =>
    match kind g e with
    | NEvolve i s => do p <- out_item fuel cur 0 c i; do q <- out_rules fuel cur (snd p) es; Some (out_rule e i s (fst p) :: fst q, snd q)
    | _ => None
    end
  end.
Definition out_function (fuel : nat) (c : nat) (s : id) : option (list token * nat) :=
  do p <- out_rules fuel s c (env g s);
  Some ([LBrace] ++ tree ++ out_chain (fst p) ++ [KElse; LBrace] ++ return_false ++ [RBrace] ++ tree ++ [KReturn; KTrue; Semi; RBrace], snd p).
(** All of them, 1218-1226, in any order of the symbols. *)
Fixpoint out_functions (fuel : nat) (c : nat) (l : list id) : option (list (id * list token)) :=
  match l with
  | [] => Some []
  | s :: l => do p <- out_function fuel c s; do q <- out_functions fuel (snd p) l; Some ((s, fst p) :: q)
  end.
End G.
