(** The reports about undefined symbols and tokens: UndefinedSymbolChecker and
    UndefinedTokenChecker of /repo/src/kdev-pg-checker.cpp 271-346, on top of DefaultVisitor
    (kdev-pg-default-visitor.cpp), called for each rule by kdev-pg-main.cpp 405-415 after
    InitializeEnvironment (env) and computeFollow (which declares EOF). *)
From Coq Require Import List Ascii String Bool.
From Verif Require Import FlexModel GramModel GraphModel.
Import ListNotations.
Open Scope list_scope.

(** The name in the message, and the rule.  UndefinedType: with (rule parameter declaration). *)
Inductive report := UndefinedSymbol (x rule : text) | UndefinedType (x rule : text) | UndefinedToken (x rule : text).

(** kdev-pg.cpp 119-150: the mDeclaration of an annotation; qFatal for other items. *)
Definition annotated (x : text) (sequence member : bool) (i : item) : declaration :=
  match i with
  | ITerminal y _ => Declaration false member TypeToken sequence x y
  | INonTerminal y _ => Declaration false member TypeNode sequence x y
  | _ => Declaration false member TypeVariable sequence x []
  end.
Definition evolve_symbol (i : item) : text := match i with IEvolve _ s _ _ => s | _ => [] end.

Section W.
Variable w : world.
(** env.count(symbol) > 0, kdev-pg-environment.h 20-25; symbols.find(name). *)
Definition has_rule (x : text) : bool := existsb (fun i => same x (evolve_symbol i)) (rules_pushed (rev (events w))).
Definition has_symbol (x : text) : bool := existsb (same x) (symbol_names w).
(** terminals.find(name), with EOF of kdev-pg-follow.cpp 75. *)
Definition has_token (x : text) : bool := same x eof_name || existsb (same x) (token_names w).

Section R.
Variable rule : text.          (* mSymbol *)
(** checker.cpp 286-294 *)
Definition visit_symbol (x : text) : list report := if has_rule x then [] else [UndefinedSymbol x rule].
(** checker.cpp 296-325; mNext is not visited. *)
Definition visit_declaration (d : declaration) : list report :=
  match dtype d with
  | TypeNode =>
    if negb (has_symbol (dtypename d)) then [UndefinedType (dtypename d) rule]
    else if negb (has_rule (dtypename d)) then [UndefinedType (dname d) rule] else []
  | _ => []
  end.
Fixpoint undefined_symbols (i : item) : list report :=
  match i with
  | IZero | ITerminal _ _ | ICode _ | IOperator _ _ _ | IBad => []
  | INonTerminal s _ | IInline s => visit_symbol s
  | IPlus j | IStar j | IAction j _ | ICondition _ j | ITryRecover j => undefined_symbols j
  | IAlternative j l | ICons j l | ITryRollback j l => undefined_symbols j ++ undefined_symbols l
  | IAnnotation x s m j => visit_declaration (annotated x s m j) ++ undefined_symbols j
  | IEvolve j s ds _ => match ds with d :: _ => visit_declaration d | [] => [] end ++ undefined_symbols j ++ visit_symbol s
  end.
(** checker.cpp 327-346 *)
Fixpoint undefined_tokens (i : item) : list report :=
  match i with
  | ITerminal x _ => if has_token x then [] else [UndefinedToken x rule]
  | IZero | ICode _ | IOperator _ _ _ | IBad | INonTerminal _ _ | IInline _ => []
  | IPlus j | IStar j | IAction j _ | ICondition _ j | ITryRecover j | IAnnotation _ _ _ j | IEvolve j _ _ _ => undefined_tokens j
  | IAlternative j l | ICons j l | ITryRollback j l => undefined_tokens j ++ undefined_tokens l
  end.
End R.

(** main.cpp 405-415; [order]: the rules as finishedParsing() sorted them. *)
Definition undefined_reports (order : list item) : list report :=
  flat_map (fun i => undefined_symbols (evolve_symbol i) i) order ++ flat_map (fun i => undefined_tokens (evolve_symbol i) i) order.
End W.
