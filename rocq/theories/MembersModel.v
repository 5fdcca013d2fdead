(** The members of the AST structs, the variables of the parse methods and the
    calls of the default visitor: GenerateAstRule (/repo/src/kdev-pg-ast-gen.cpp
    84-214), CodeGenerator, GenerateParserRule, GenerateLocalDeclarations,
    GenerateParseMethodSignature, GenerateTokenVariableInitialization and
    GenerateVariableDeclaration (kdev-pg-code-gen.cpp 195-1030, 1228-1249),
    GenerateDefaultVisitorBitsRule and HasMemberNodes
    (kdev-pg-default-visitor-bits-gen.cpp). *)
From Coq Require Import List NArith PeanoNat Bool.
From Verif Require Import Base ItemModel.
Import ListNotations.

(** printName, code-gen.cpp 1018-1024. *)
Definition t_sequence : text := [83; 101; 113; 117; 101; 110; 99; 101]%N.
Definition shown (d : decl) : text := if dseq d then dname d ++ t_sequence else dname d.
(** printType, 997-1016: a list or not, and the type of the elements; the names
    of AST types are given by those of the symbols. *)
Inductive ctype := CInt | CNode (s : text) | CUser (t : text).
Definition element (d : decl) : ctype := match dkind d with VToken => CInt | VNode => CNode (dtype d) | VVariable => CUser (dtype d) end.
Definition shown_type (d : decl) : bool * ctype := (dseq d, element d).
(** A variable or member as declared in the output. *)
Definition var := (text * (bool * ctype))%type.
Definition as_var (d : decl) : var := (shown d, shown_type d).

Definition decls_of (l : list event) : list decl := flat_map (fun e => match e with EDecl d => [d] | EOper _ => [] end) l.

Section G.
Variable g : grammar.
Variable fuel : nat.

(** ** The structs
    GenerateAstRule::visitVariableDeclaration, ast-gen.cpp 192-205, with mNames. *)
Fixpoint members (ds : list decl) (names : list text) : list decl * list text :=
  match ds with
  | [] => ([], names)
  | d :: ds =>
    if (dmember d && negb (tmem (dname d) names))%bool
    then let (l, n) := members ds (dname d :: names) in (d :: l, n)
    else members ds names
  end.
(** operator() and visitEvolve, 84-190: one struct for every rule of the symbol,
    mNames being cleared once.  Rules that are not operator rules. *)
Fixpoint structs_of (rs : list rule) (names : list text) : option (list (list var)) :=
  match rs with
  | [] => Some []
  | r :: rs =>
    do l <- walk_rule g true fuel r;
    let (m, names) := members (decls_of l) names in
    do s <- structs_of rs names; Some (map as_var m :: s)
  end.
Definition structs (s : text) : option (list (list var)) := structs_of (env g s) [].

(** ** The parse methods
    Of the statements, those that name variables of the grammar: a variable declared,
    a value assigned to a member of the node and to a variable, the value of a
    variable used, and a block.  The variables __node_N, try_startToken_N and so on,
    the tests, the calls and the code of the user are left out. *)
Inductive stmt :=
| SVar (v : var)
| SMember (x : text) (ty : bool * ctype)
| SAssign (x : text) (ty : bool * ctype)
| SUse (x : text) (ty : bool * ctype)
| SBlock (l : list stmt).

(** globalSystem.generateAst *)
Variable ast : bool.

(** GenerateLocalDeclarations::visitVariableDeclaration, code-gen.cpp 897-952. *)
Fixpoint locals (ds : list decl) (names : list text) : list stmt * list text :=
  match ds with
  | [] => ([], names)
  | d :: ds =>
    if (negb (dmember d) && negb (dargument d))%bool
    then if tmem (dname d) names then locals ds names
         else let (l, n) := locals ds (dname d :: names) in (SVar (as_var d) :: l, n)
    else if (dmember d && dargument d && ast)%bool
    then let (l, n) := locals ds names in (SUse (shown d) (shown_type d) :: SMember (shown d) (shown_type d) :: l, n)
    else locals ds names
  end.

(** visitAnnotation, 438-558: the target and the type of the value. *)
Definition assign (x : text) (member seq : bool) (a : atom) : list stmt :=
  if ast then
    let target := if seq then x ++ t_sequence else x in
    let ty := (seq, match a with ATerm _ => CInt | ANon s => CNode s end) in
    [if member then SMember target ty else SAssign target ty]
  else [].

(** CodeGenerator, 195-437; mNames is handed on.  visitAlternative flattens
    nested alternatives, each of them gets a block. *)
Section C.
Variable inl : nat -> list text -> option (list stmt * list text).
Definition block (p : list stmt * list text) : list stmt * list text := ([SBlock (fst p)], snd p).
Definition is_alt (i : item) : bool := match i with IAlt _ _ => true | _ => false end.
Fixpoint code_item (i : item) (names : list text) : option (list stmt * list text) :=
  match i with
  | IZero | IAtom _ | ICode | IOper _ => Some ([], names)
  | IInl n => inl n names
  | IPlus i | IStar i => option_map block (code_item i names)
  | IAct i | ICond i => code_item i names
  | IAlt l r =>
    do p <- (if is_alt l then code_item l names else option_map block (code_item l names));
    do q <- (if is_alt r then code_item r (snd p) else option_map block (code_item r (snd p)));
    Some (fst p ++ fst q, snd q)
  | ICons l r =>
    do p <- code_item l names; do q <- code_item r (snd p); Some (fst p ++ fst q, snd q)
  | ITry t => option_map block (code_item t names)
  | IRollback t c =>
    do p <- option_map block (code_item t names); do q <- option_map block (code_item c (snd p)); Some (fst p ++ fst q, snd q)
  | IAnn x m s a => Some (assign x m s a, names)
  end.
End C.
(** DefaultVisitor::visitInlinedNonTerminal, and visitEvolve 322-355 for the rule
    inlined: the local declarations of its item and the code, in a block. *)
Fixpoint code (f : nat) (i : item) (names : list text) : option (list stmt * list text) :=
  code_item (fun n names =>
    match target g n with
    | None => Some ([], names)
    | Some s =>
      match search g s with
      | None => Some ([], names)
      | Some r =>
        match f with
        | 0 => None
        | S f =>
          do evs <- walk g true fuel (ritem r);
          let (l, names) := locals (decls_of evs) names in
          do p <- code f (ritem r) names;
          Some (block (l ++ fst p, snd p))
        end
      end
    end) i names.
(** visitEvolve, 322-355. *)
Definition code_rule (r : rule) (names : list text) : option (list stmt * list text) :=
  do evs <- walk g true fuel (ritem r);
  let (l, names) := locals (decls_of evs) names in
  do p <- code fuel (ritem r) names;
  Some (block (l ++ fst p, snd p)).
Fixpoint code_rules (rs : list rule) (names : list text) : option (list stmt) :=
  match rs with
  | [] => Some []
  | r :: rs => do p <- code_rule r names; do l <- code_rules rs (snd p); Some (fst p ++ l)
  end.

(** GenerateParseMethodSignature, 954-991, 961-972: the parameters, from the
    first rule. *)
Definition parameters (ds : list decl) : list decl := filter (fun d => dargument d && (ast || negb (dmember d)))%bool ds.
(** GenerateTokenVariableInitialization, 1228-1249: the item of the first rule;
    mNext is not followed. *)
Definition initialize (ds : list decl) : list stmt :=
  flat_map (fun d => match dkind d with VToken => if dseq d then [] else [SMember (dname d) (false, CInt)] | _ => [] end) ds.
Fixpoint locals_rules (rs : list rule) (names : list text) : list stmt * list text :=
  match rs with
  | [] => ([], names)
  | r :: rs => let (l, names) := locals (rdecls r) names in let (m, names) := locals_rules rs names in (l ++ m, names)
  end.
(** GenerateParserRule::operator(), 805-890: parameters and body, for a symbol
    that is not an operator symbol. *)
Definition parse_method (s : text) : option (list var * list stmt) :=
  let rs := env g s in
  let ps := match rs with [] => [] | r :: _ => parameters (rdecls r) end in
  do init <- (if ast then match rs with [] => Some [] | r :: _ => option_map (fun l => initialize (decls_of l)) (walk g false fuel (ritem r)) end else Some []);
  let (l, names) := locals_rules rs (rev (map dname ps)) in
  do c <- code_rules rs names;
  Some (map as_var ps, init ++ l ++ c).

(** ** The default visitor
    GenerateDefaultVisitorBitsRule, 14-110: visitNode for the member, or for every
    element of the list. *)
Fixpoint calls (ds : list decl) (names : list text) : list (text * bool) * list text :=
  match ds with
  | [] => ([], names)
  | d :: ds =>
    match dkind d with
    | VNode =>
      if (dmember d && negb (tmem (dname d) names))%bool
      then let (l, n) := calls ds (dname d :: names) in ((shown d, dseq d) :: l, n)
      else calls ds names
    | _ => calls ds names
    end
  end.
Fixpoint calls_rules (rs : list rule) (names : list text) : option (list (text * bool)) :=
  match rs with
  | [] => Some []
  | r :: rs =>
    do l <- walk_rule g true fuel r;
    let (c, names) := calls (decls_of l) names in
    do m <- calls_rules rs names; Some (c ++ m)
  end.
(** HasMemberNodes, 112-146: whether the parameter gets the name node; mNext is
    not followed. *)
Fixpoint has_nodes (rs : list rule) : option bool :=
  match rs with
  | [] => Some false
  | r :: rs =>
    do l <- walk_rule g false fuel r;
    do b <- has_nodes rs;
    Some (existsb (fun d => dmember d && match dkind d with VNode => true | _ => false end)%bool (decls_of l) || b)%bool
  end.
Definition visitor (s : text) : option (bool * list (text * bool)) :=
  do b <- has_nodes (env g s); do l <- calls_rules (env g s) []; Some (b, l).
End G.
