(** The nodes of a grammar in memory (GrammarModel), made from what the parser of grammar
    files leaves (GramModel): createNode and the functions of /repo/src/kdev-pg.cpp 14-177
    called by kdev-pg-parser.yy, pushTerminal, pushSymbol, pushRule, finishedParsing
    (kdev-pg.h 174-271), the EOF of kdev-pg-follow.cpp 75 and the nodes of BnfVisitor
    (kdev-pg-bnf-visitor.cpp 71-240).

    Nodes are numbered: the zero node, the terminals, the symbols, the items of the rules
    (parts before wholes), the nodes of BnfVisitor, EOF if it is not declared.  Any other
    numbering would do, addresses are only compared.  A TerminalItem of a token that is not
    declared is a new node everywhere, also in copies.  The alternatives that BnfVisitor
    makes of operators are chained the other way round there, which changes nothing but the
    order of visits. *)
From Coq Require Import List Ascii String Bool PeanoNat.
From Verif Require Import FlexModel GramModel GrammarModel.
Import ListNotations.
Open Scope list_scope.

Definition same (x y : text) : bool := if list_eq_dec ascii_dec x y then true else false.
(** The place of a name in a list, counted from [n]. *)
Fixpoint index (x : text) (l : list text) (n : nat) : option nat :=
  match l with [] => None | y :: l => if same x y then Some n else index x l (S n) end.

(** What the events leave: rules and symbols in order. *)
Definition rules_pushed (l : list event) : list GramModel.item := flat_map (fun e => match e with PushRule i => [i] | _ => [] end) l.
Definition symbols_pushed (l : list event) : list text := flat_map (fun e => match e with PushSymbol x => [x] | _ => [] end) l.
(** pushSymbol, kdev-pg.h 218-232: symbols and start. *)
Definition push_symbol (st : list text * list text) (x : text) : list text * list text :=
  if existsb (same x) (fst st) then (fst st, filter (fun y => negb (same x y)) (snd st)) else (fst st ++ [x], x :: snd st).
Definition pushed (l : list text) : list text * list text := fold_left push_symbol l ([], []).

Section P.
Variable tid sid : text -> option id.
(** A node for an unknown symbol cannot be needed: every mention pushes the symbol. *)
Definition sym_id (x : text) : id := match sid x with Some n => n | None => 0 end.

Record placed := Placed { pin : list node; pout : list node; pid : id }.

(** ast.h 195-265: mPre, mPost, mBin, mTern, mParen. *)
Definition tok_name (o : operator) : text := match o with Operator (ITerminal x _) _ _ => x | _ => [] end.
Definition one_kind (k : nat) (o : operators) : bool :=
  Nat.eqb k match o with Pre _ _ => 0 | Post _ _ _ => 1 | Bin _ _ _ => 2 | Tern _ _ _ _ => 3 | Paren _ _ => 4 end.
Definition by_kind (l : list operators) : list operators := flat_map (fun k => filter (one_kind k) l) [0; 1; 2; 3; 4].
(** A terminal: the declared one, or a new node. *)
Definition place_token (x : text) (n : nat) : list node * id := match tid x with Some t => ([], t) | None => ([NTerm], n) end.
Definition place_operator (o : operators) (n : nat) : list node * op :=
  let one (f : id -> op) (a : operator) := let p := place_token (tok_name a) n in (fst p, f (snd p)) in
  let two (f : id -> id -> op) (a b : operator) :=
    let p := place_token (tok_name a) n in let q := place_token (tok_name b) (n + List.length (fst p)) in (fst p ++ fst q, f (snd p) (snd q)) in
  match o with
  | Pre a _ => one OPre a
  | Post a _ _ => one OPost a
  | Bin a _ _ => one OBin a
  | Tern a b _ _ => two OTern a b
  | Paren a b => two OParen a b
  end.
Fixpoint place_operators (l : list operators) (n : nat) : list node * list op :=
  match l with
  | [] => ([], [])
  | o :: l => let p := place_operator o n in let q := place_operators l (n + List.length (fst p)) in (fst p ++ fst q, snd p :: snd q)
  end.
(** bnf-visitor.cpp 125-240: what spells one operator, from number [o] on, and the chain. *)
Definition spell (top : id) (x : op) (o : nat) : list node :=
  match x with
  | OPre t => [NCons t top]
  | OPost t => [NCons top t]
  | OBin t => [NCons top (S o); NCons t top]
  | OTern s t => [NCons top (S o); NCons s (S (S o)); NCons top (S (S (S o))); NCons t top]
  | OParen s t => [NCons s (S o); NCons top t]
  end.
Fixpoint chain_nodes (top b : id) (l : list op) (o : nat) : list node :=
  match l with
  | [] => []
  | x :: l =>
    let c := spell top x (S o) in
    let next := S o + List.length c in
    NAlt (S o) (match l with [] => b | _ => next end) :: c ++ chain_nodes top b l next
  end.

(** The nodes of an item: [n] and [o] are the next free numbers for the nodes of the parser
    and of BnfVisitor. *)
Fixpoint place (i : GramModel.item) (n o : nat) : placed :=
  let one (f : id -> node) (j : GramModel.item) := let p := place j n o in Placed (pin p ++ [f (pid p)]) (pout p) (n + List.length (pin p)) in
  let loop (f : id -> id -> id -> node) (j : GramModel.item) :=
    let p := place j n o in
    let c := o + List.length (pout p) in
    Placed (pin p ++ [f (pid p) c (S c)]) (pout p ++ [NCons (pid p) (S c); NAlt 0 c]) (n + List.length (pin p)) in
  let two (f : id -> id -> node) (j l : GramModel.item) :=
    let p := place j n o in
    let q := place l (n + List.length (pin p)) (o + List.length (pout p)) in
    Placed (pin p ++ pin q ++ [f (pid p) (pid q)]) (pout p ++ pout q) (n + List.length (pin p) + List.length (pin q)) in
  match i with
  | IZero => Placed [] [] 0
  | ITerminal x _ => let p := place_token x n in Placed (fst p) [] (snd p)
  | INonTerminal s _ => Placed [NNon (sym_id s)] [] n
  | IInline s => Placed [NInl (sym_id s)] [] n
  | IPlus j => loop NPlus j
  | IStar j => loop NStar j
  | IAction j _ => one (fun k => NAct (Some k)) j
  | ICode _ => Placed [NAct None] [] n
  | IAlternative j l => two NAlt j l
  | ICons j l => two NCons j l
  | ITryRecover j => one (fun k => NTry k None) j
  | ITryRollback j l => two (fun a b => NTry a (Some b)) j l
  | IAnnotation _ _ _ j => one NAnn j
  | ICondition _ j => one NCond j
  | IOperator _ b l =>
    let p := place_operators (by_kind l) n in
    let base := n + List.length (fst p) in
    let x := match snd p with [] => base | _ => o end in
    Placed (fst p ++ [NNon (sym_id b); NOper base (snd p) x]) (chain_nodes x base (snd p) o) (S base)
  | IEvolve j s _ _ => one (fun k => NEvolve k (sym_id s)) j
  | IBad => Placed [NOther] [] n
  end.
(** The rules, one after the other; the numbers of their EvolveItems. *)
Fixpoint place_rules (l : list GramModel.item) (n o : nat) : list node * list node * list id :=
  match l with
  | [] => ([], [], [])
  | i :: l =>
    let p := place i n o in
    let q := place_rules l (n + List.length (pin p)) (o + List.length (pout p)) in
    (pin p ++ fst (fst q), pout p ++ snd (fst q), pid p :: snd q)
  end.
End P.

Section W.
Variable w : world.
Let evs := rev (events w).
Definition token_names : list text := map fst (terminals w).
Definition symbol_names : list text := fst (pushed (symbols_pushed evs)).
Definition token_id (x : text) : option id := index x token_names 1.
Definition symbol_id (x : text) : option id := index x symbol_names (1 + List.length token_names).
Definition items_from : nat := 1 + List.length token_names + List.length symbol_names.
(** How many nodes the items need does not depend on the numbers given (GraphProofs). *)
Definition items_to : nat := items_from + List.length (fst (fst (place_rules token_id symbol_id (rules_pushed evs) items_from 0))).
Definition all_placed : list node * list node * list id := place_rules token_id symbol_id (rules_pushed evs) items_from items_to.
(** The EvolveItems in the order of the file. *)
Definition rule_ids : list id := snd all_placed.
Definition eof_name : text := chars "EOF".
Definition plain_nodes : list node :=
  [NZero] ++ repeat NTerm (List.length token_names) ++ repeat NSym (List.length symbol_names) ++ fst (fst all_placed) ++ snd (fst all_placed).
(** [order]: the rules as finishedParsing() leaves them, sorted by the address of their
    symbol. *)
Definition graph (order : list id) : grammar := {|
  gnodes := plain_nodes ++ match token_id eof_name with Some _ => [] | None => [NTerm] end;
  gregular := items_to;
  grules := order;
  gzero := 0;
  gterms := List.seq 1 (List.length token_names);
  gstart := flat_map (fun x => match symbol_id x with Some n => [n] | None => [] end) (snd (pushed (symbols_pushed evs)));
  geof := match token_id eof_name with Some n => n | None => List.length plain_nodes end |}.
End W.
