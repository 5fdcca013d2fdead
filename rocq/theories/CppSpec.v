(** The part of C++ in which the parse functions are written (/repo/src/kdev-pg-code-gen.cpp
    writes them): how a sequence of tokens is read as statements, and what statements do.

    Taken together as one token each: [Call s], parseX(...); [User n], a condition written by
    the user, a primary expression; [Do a], the simple statements below without their ;.
    [Do Tree] stands for any statements that work on the tree and the user's own things only:
    declarations of nodes, assignments, code blocks, copies of the parser's state, the
    stack of operators. *)
From Coq Require Import List Bool PeanoNat.
From Verif Require Import Base GrammarModel ParserModel.
Import ListNotations.

Inductive simple :=
| Lex                    (* yylex() *)
| Complain               (* expectedToken(...), expectedSymbol(...) *)
| Save (k : nat)         (* bool blockErrors_k = blockErrors(true) *)
| Restore (k : nat)      (* blockErrors(blockErrors_k) *)
| Mark (k : nat)         (* qint64 try_startToken_k = tokenStream->index() - 1 *)
| Rewind (k : nat)       (* rewind(try_startToken_k) *)
| Expect (b : bool)      (* [bool] expectOperator = b *)
| Tree.
Inductive token :=
| KIf | KElse | KWhile | KDo | KReturn | KBreak | KGoto | KTrue | KFalse
| LPar | RPar | LBrace | RBrace | Semi | Colon | EqEq | NotEq | AndAnd | OrOr | Not
| YyToken                (* yytoken *)
| Kind (t : id)          (* Token_X *)
| Blocked                (* mBlockErrors *)
| AtMark (k : nat)       (* try_startToken_k == tokenStream->index() - 1 *)
| Expecting              (* expectOperator *)
| Call (s : id) | User (n : id) | Lab (k : nat) | Do (a : simple).

Inductive exp :=
| EBool (b : bool) | EYyToken | EKind (t : id) | EBlocked | EAtMark (k : nat) | EExpecting | ECall (s : id) | EUser (n : id)
| ENot (e : exp) | EEq (a b : exp) | ENe (a b : exp) | EAnd (a b : exp) | EOr (a b : exp).
Inductive stmt :=
| SDo (a : simple)
| SIf (c : exp) (a : stmt) (b : option stmt)
| SWhile (c : exp) (s : stmt)
| SDoWhile (s : stmt) (c : exp)
| SBlock (l : list stmt)
| SReturn (b : bool)
| SBreak
| SGoto (k : nat)
| SLabel (k : nat) (s : stmt).

(** ** Reading
    Expressions with the precedence of C++: || (0), && (1), == and != (2), ! (3).  Chains of
    || and && are put together from the right, which makes no difference to what they do. *)
Fixpoint read_exp (fuel level : nat) (l : list token) : option (exp * list token) :=
  match fuel with
  | 0 => None
  | S f =>
    match level with
    | 0 => do p <- read_exp f 1 l; match snd p with OrOr :: r => do q <- read_exp f 0 r; Some (EOr (fst p) (fst q), snd q) | _ => Some p end
    | 1 => do p <- read_exp f 2 l; match snd p with AndAnd :: r => do q <- read_exp f 1 r; Some (EAnd (fst p) (fst q), snd q) | _ => Some p end
    | 2 =>
      do p <- read_exp f 3 l;
      match snd p with
      | EqEq :: r => do q <- read_exp f 3 r; Some (EEq (fst p) (fst q), snd q)
      | NotEq :: r => do q <- read_exp f 3 r; Some (ENe (fst p) (fst q), snd q)
      | _ => Some p
      end
    | _ =>
      match l with
      | Not :: r => do p <- read_exp f 3 r; Some (ENot (fst p), snd p)
      | LPar :: r => do p <- read_exp f 0 r; match snd p with RPar :: r => Some (fst p, r) | _ => None end
      | KTrue :: r => Some (EBool true, r)
      | KFalse :: r => Some (EBool false, r)
      | YyToken :: r => Some (EYyToken, r)
      | Kind t :: r => Some (EKind t, r)
      | Blocked :: r => Some (EBlocked, r)
      | AtMark k :: r => Some (EAtMark k, r)
      | Expecting :: r => Some (EExpecting, r)
      | Call s :: r => Some (ECall s, r)
      | User n :: r => Some (EUser n, r)
      | _ => None
      end
    end
  end.
(** ( expression ) *)
Definition read_test (fuel : nat) (l : list token) : option (exp * list token) :=
  match l with LPar :: r => do p <- read_exp fuel 0 r; match snd p with RPar :: r => Some (fst p, r) | _ => None end | _ => None end.
(** The statements up to a closing brace or the end. *)
Section M.
Variable one : list token -> option (stmt * list token).
Fixpoint read_many (n : nat) (l : list token) : option (list stmt * list token) :=
  match l with
  | [] | RBrace :: _ => Some ([], l)
  | _ => match n with 0 => None | S n => do p <- one l; do q <- read_many n (snd p); Some (fst p :: fst q, snd q) end
  end.
End M.
(** A statement; an else belongs to the nearest if. *)
Fixpoint read_stmt (fuel : nat) (l : list token) : option (stmt * list token) :=
  match fuel with
  | 0 => None
  | S f =>
    match l with
    | Do a :: Semi :: r => Some (SDo a, r)
    | KReturn :: KTrue :: Semi :: r => Some (SReturn true, r)
    | KReturn :: KFalse :: Semi :: r => Some (SReturn false, r)
    | KBreak :: Semi :: r => Some (SBreak, r)
    | KGoto :: Lab k :: Semi :: r => Some (SGoto k, r)
    | Lab k :: Colon :: r => do p <- read_stmt f r; Some (SLabel k (fst p), snd p)
    | KIf :: r =>
      do c <- read_test f r; do p <- read_stmt f (snd c);
      match snd p with
      | KElse :: r => do q <- read_stmt f r; Some (SIf (fst c) (fst p) (Some (fst q)), snd q)
      | _ => Some (SIf (fst c) (fst p) None, snd p)
      end
    | KWhile :: r => do c <- read_test f r; do p <- read_stmt f (snd c); Some (SWhile (fst c) (fst p), snd p)
    | KDo :: r =>
      do p <- read_stmt f r;
      match snd p with
      | KWhile :: r => do c <- read_test f r; match snd c with Semi :: r => Some (SDoWhile (fst p) (fst c), r) | _ => None end
      | _ => None
      end
    | LBrace :: r => do p <- read_many (read_stmt f) f r; match snd p with RBrace :: r => Some (SBlock (fst p), r) | _ => None end
    | _ => None
    end
  end.
(** The body of a function, with its braces. *)
Definition reads (l : list token) (body : list stmt) : Prop := exists f, read_stmt f l = Some (SBlock body, []).

(** ** Execution
    The state of the parser (ParserModel) and the local variables of the function. *)
Record memory := Memory { mp : pstate; saved : nat -> option bool; marked : nat -> option nat; expecting : option bool }.
Definition at_pstate (p : pstate) (m : memory) : memory := Memory p (saved m) (marked m) (expecting m).
Definition fresh (p : pstate) : memory := Memory p (fun _ => None) (fun _ => None) None.
Definition set {A} (f : nat -> option A) (k : nat) (a : A) : nat -> option A := fun j => if Nat.eqb j k then Some a else f j.

Inductive value := VBool (b : bool) | VKind (t : id).
(** [Stuck]: a variable is read before it is set, a function ends without return, a label is
    missing, or types do not fit.  [Gone]: out of fuel. *)
Inductive evaluated := Value (v : value) (m : memory) | EStuck | EGone.
Inductive result := Normal (m : memory) | Jump (k : nat) (m : memory) | Return (b : bool) (p : pstate) | Break (m : memory) | Stuck | Gone.
Definition truth (e : evaluated) (k : bool -> memory -> result) : result :=
  match e with Value (VBool b) m => k b m | Value _ _ => Stuck | EStuck => Stuck | EGone => Gone end.
Definition bool_of (e : evaluated) (k : bool -> memory -> evaluated) : evaluated :=
  match e with Value (VBool b) m => k b m | Value _ _ => EStuck | e => e end.
Definition kind_of (e : evaluated) (k : id -> memory -> evaluated) : evaluated :=
  match e with Value (VKind t) m => k t m | Value _ _ => EStuck | e => e end.

(** Whether a label is in a statement. *)
Fixpoint has (k : nat) (s : stmt) : bool :=
  match s with
  | SLabel j s => Nat.eqb k j || has k s
  | SIf _ a b => has k a || match b with Some b => has k b | None => false end
  | SWhile _ s | SDoWhile s _ => has k s
  | SBlock l => existsb (has k) l
  | _ => false
  end.

Section X.
Variable tok : nat -> id.
Variable cond : nat -> bool.
(** The bodies of the parse functions. *)
Variable body : id -> list stmt.

Definition act (a : simple) (m : memory) : result :=
  match a with
  | Lex => Normal (at_pstate (yylex tok (mp m)) m)
  | Complain => Normal (at_pstate (complain (mp m)) m)
  | Save k => Normal (Memory (block true (mp m)) (set (saved m) k (pblock (mp m))) (marked m) (expecting m))
  | Restore k => match saved m k with Some b => Normal (at_pstate (block b (mp m)) m) | None => Stuck end
  | Mark k => Normal (Memory (mp m) (saved m) (set (marked m) k (pidx (mp m) - 1)) (expecting m))
  | Rewind k => match marked m k with Some i => Normal (at_pstate (rewind tok i (mp m)) m) | None => Stuck end
  | Expect b => Normal (Memory (mp m) (saved m) (marked m) (Some b))
  | Tree => Normal m
  end.

(** A list of statements, from the beginning or from a label: a jump to a label further on in
    the list goes there. *)
Section L.
Variable ex : option nat -> stmt -> memory -> result.
Fixpoint execs (seek : option nat) (l : list stmt) (m : memory) : result :=
  match l with
  | [] => match seek with None => Normal m | Some _ => Stuck end
  | s :: l =>
    let after (r : result) : result :=
      match r with
      | Normal m => execs None l m
      | Jump k m => if existsb (has k) l then execs (Some k) l m else Jump k m
      | r => r
      end in
    match seek with
    | None => after (ex None s m)
    | Some k => if has k s then after (ex (Some k) s m) else execs (Some k) l m
    end
  end.
End L.

Fixpoint eval (fuel : nat) (e : exp) (m : memory) : evaluated :=
  match fuel with
  | 0 => EGone
  | S f =>
    match e with
    | EBool b => Value (VBool b) m
    | EYyToken => Value (VKind (ptok (mp m))) m
    | EKind t => Value (VKind t) m
    | EBlocked => Value (VBool (pblock (mp m))) m
    | EAtMark k => match marked m k with Some i => Value (VBool (Nat.eqb i (pidx (mp m) - 1))) m | None => EStuck end
    | EExpecting => match expecting m with Some b => Value (VBool b) m | None => EStuck end
    | ECall s =>
      match exec f None (SBlock (body s)) (fresh (mp m)) with
      | Return b p => Value (VBool b) (at_pstate p m)
      | Gone => EGone
      | _ => EStuck
      end
    | EUser _ => let (b, p) := ask cond (mp m) in Value (VBool b) (at_pstate p m)
    | ENot a => bool_of (eval f a m) (fun b m => Value (VBool (negb b)) m)
    | EEq a b => kind_of (eval f a m) (fun x m => kind_of (eval f b m) (fun y m => Value (VBool (Nat.eqb x y)) m))
    | ENe a b => kind_of (eval f a m) (fun x m => kind_of (eval f b m) (fun y m => Value (VBool (negb (Nat.eqb x y))) m))
    | EAnd a b => bool_of (eval f a m) (fun x m => if x then bool_of (eval f b m) (fun y m => Value (VBool y) m) else Value (VBool false) m)
    | EOr a b => bool_of (eval f a m) (fun x m => if x then Value (VBool true) m else bool_of (eval f b m) (fun y m => Value (VBool y) m))
    end
  end
(** [seek]: execution starts at a label inside. *)
with exec (fuel : nat) (seek : option nat) (s : stmt) (m : memory) : result :=
  match fuel with
  | 0 => Gone
  | S f =>
    match s with
    | SDo a => act a m
    | SReturn b => Return b (mp m)
    | SBreak => Break m
    | SGoto k => Jump k m
    | SLabel j s => match seek with Some k => exec f (if Nat.eqb k j then None else seek) s m | None => exec f None s m end
    | SIf c a b =>
      match seek with
      | None => truth (eval f c m) (fun go m => if go then exec f None a m else match b with Some b => exec f None b m | None => Normal m end)
      | Some k => if has k a then exec f seek a m else match b with Some b => exec f seek b m | None => Stuck end
      end
    | SWhile c b =>
      match seek with
      | None =>
        truth (eval f c m) (fun go m =>
          if go then match exec f None b m with Normal m => exec f None s m | Break m => Normal m | r => r end else Normal m)
      | Some _ => match exec f seek b m with Normal m => exec f None s m | Break m => Normal m | r => r end
      end
    | SDoWhile b c =>
      match exec f seek b m with
      | Normal m => truth (eval f c m) (fun go m => if go then exec f None s m else Normal m)
      | Break m => Normal m
      | r => r
      end
    | SBlock l =>
      match execs (exec f) seek l m with
      | Jump k m => if existsb (has k) l then exec f (Some k) s m else Jump k m
      | r => r
      end
    end
  end.
(** parseX() *)
Definition call (fuel : nat) (s : id) (p : pstate) : result := exec fuel None (SBlock (body s)) (fresh p).
End X.
