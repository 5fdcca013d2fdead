(** The trees that a generated operator parser builds: CodeGenerator::visitOperator
    and GenerateParserRule::operator() (/repo/src/kdev-pg-code-gen.cpp 563-786,
    804-880) for a symbol whose only rule is an operator expression.  As in
    ParserModel, writing the text and running it are taken in one step. *)
From Coq Require Import List NArith PeanoNat Bool.
Import ListNotations.

(** AST nodes (kdev-pg-ast-gen.cpp 113-181, create() 1119-1133): kind, first,
    second, third, startToken and endToken.  The memory pool hands out memory
    filled with zeros (C07), so members that nobody has set are null. *)
Inductive ckind := KBase | KPre | KPost | KBin | KTern.
Record cell := Cell { ck : ckind; c1 : option nat; c2 : option nat; c3 : option nat; cs : nat; ce : nat }.
(** The nodes that exist, by address, and the next address. *)
Record heap := Heap { cells : nat -> cell; next : nat }.
Definition put (h : heap) (a : nat) (c : cell) : heap := Heap (fun b => if Nat.eqb b a then c else cells h b) (next h).
Definition alloc (h : heap) (c : cell) : heap := Heap (cells (put h (next h) c)) (S (next h)).
Definition set_span (h : heap) (a s e : nat) : heap := let c := cells h a in put h a (Cell (ck c) (c1 c) (c2 c) (c3 c) s e).
Definition set_end (h : heap) (a e : nat) : heap := set_span h a (cs (cells h a)) e.
Definition set1 (h : heap) (a x : nat) : heap := let c := cells h a in put h a (Cell (ck c) (Some x) (c2 c) (c3 c) (cs c) (ce c)).
Definition set2 (h : heap) (a x : nat) : heap := let c := cells h a in put h a (Cell (ck c) (c1 c) (Some x) (c3 c) (cs c) (ce c)).
Definition set3 (h : heap) (a x : nat) : heap := let c := cells h a in put h a (Cell (ck c) (c1 c) (c2 c) (Some x) (cs c) (ce c)).

(** An operator: its token and its condition (empty: always true), which may look
    at the position. *)
Record oper := Oper { otok : nat; ocond : nat -> bool }.
(** With priority and associativity (true: left), numbers or code that looks at the
    position (parser.yy 614-653); kdev-pg-ast.h OperatorItem. *)
Record pre := Pre { pop : oper; pprio : nat -> N }.
Record infix := Infix { iop : oper; iprio : nat -> N; ileft : nat -> bool }.
Record tern := Tern { top1 : oper; top2 : oper; tprio : nat -> N; tleft : nat -> bool }.
Record optab := Tab { tpre : list pre; tpost : list infix; tbin : list infix; ttern : list tern; tparen : list (oper * oper) }.

(** OperatorStackItem (1074); p is unsigned int, [closed] is -2. *)
Definition word := 0x100000000%N.
Definition closed : N := 0xfffffffe%N.
(** opStack, the last one first, and [*yynode]. *)
Record state := State { hp : heap; yynode : option nat; stack : list (nat * N) }.

(** [while(priority < opStack.last().p + left) ...]: 588-602, 622-638, 662-691. *)
Definition pops (prio : N) (left : bool) (p : N) : bool := (prio <? (p + (if left then 1 else 0)) mod word)%N.
(** [RRoot n]: the stack had one entry left, [n], when br was set; [RStop l]: the
    loop ended with last = [l]; [RBad]: a null pointer or an empty stack is used. *)
Inductive reduced := RRoot (n : nat) (h : heap) | RStop (l : nat) (h : heap) (s : list (nat * N)) | RBad.
Fixpoint reduce (prio : N) (left : bool) (s : list (nat * N)) (last : option nat) (h : heap) : reduced :=
  match s with
  | [] => RBad
  | (n, p) :: rest =>
    if pops prio left p then
      let h := match last with Some l => set_end h n (ce (cells h l)) | None => h end in
      match rest with [] => RRoot n h | _ => reduce prio left rest (Some n) h end
    else match last with Some l => RStop l (set_end h n (ce (cells h l))) s | None => RBad end
  end.

(** Postfix operators, 588-612. *)
Definition do_post (prio : N) (left : bool) (st : state) : option state :=
  match reduce prio left (stack st) None (hp st) with
  | RRoot n h =>
    let a := next h in
    Some (State (alloc h (Cell KPost (Some n) None None (cs (cells h n)) (S (ce (cells h n))))) (Some a) [(a, closed)])
  | RStop l h ((n, p) :: s) =>
    let a := next h in
    let h := alloc h (Cell KPost (Some l) None None (cs (cells h l)) (S (ce (cells h l)))) in
    match ck (cells h n), c2 (cells h n) with
    | KBase, _ => None
    | KBin, Some _ => Some (State (set2 h n a) (yynode st) ((a, closed) :: (n, p) :: s))
    | _, _ => Some (State (set1 h n a) (yynode st) ((a, closed) :: (n, p) :: s))
    end
  | _ => None
  end.
(** The member chosen in 641-650 and 693-700. *)
Definition into (h : heap) (n a : nat) : option heap :=
  match ck (cells h n) with
  | KTern => Some (match c3 (cells h n), c2 (cells h n) with Some _, _ => set3 h n a | None, Some _ => set2 h n a | None, None => set1 h n a end)
  | KBin => Some (match c2 (cells h n) with Some _ => set2 h n a | None => set1 h n a end)
  | KPre | KPost => Some (set1 h n a)
  | KBase => None
  end.
(** Binary operators, 622-651, and ternary ones without the part that is done in
    the loop, 662-700.  The flag: br. *)
Definition do_infix (k : ckind) (prio : N) (left : bool) (st : state) : option (state * bool) :=
  match reduce prio left (stack st) None (hp st) with
  | RRoot n h =>
    let a := next h in
    Some (State (alloc h (Cell k (Some n) None None (cs (cells h n)) 0)) (Some a) [(a, prio)], true)
  | RStop l h ((n, p) :: s) =>
    let a := next h in
    match into (alloc h (Cell k (Some l) None None (cs (cells h l)) 0)) n a with
    | Some h => Some (State h (yynode st) ((a, prio) :: (n, p) :: s), false)
    | None => None
    end
  | _ => None
  end.
(** Where an operand goes, 719-729 and PUSH_UNARY, 758-771.  [None]: a member that
    the node does not have is read. *)
Definition fill (h : heap) (n x : nat) : option heap :=
  match ck (cells h n), c1 (cells h n), c2 (cells h n) with
  | KBase, _, _ => None
  | _, None, _ => Some (set1 h n x)
  | KBin, Some _, None | KTern, Some _, None => Some (set2 h n x)
  | KTern, Some _, Some _ => Some (set3 h n x)
  | _, _, _ => None
  end.
Definition attach (st : state) (x : nat) (p : N) : option state :=
  match stack st with
  | [] => Some (State (hp st) (Some x) [(x, p)])
  | (n, q) :: s => match fill (hp st) n x with Some h => Some (State h (yynode st) ((x, p) :: (n, q) :: s)) | None => None end
  end.
(** Prefix operators, 716-733. *)
Definition do_pre (prio : N) (pos : nat) (st : state) : option state :=
  let a := next (hp st) in
  attach (State (alloc (hp st) (Cell KPre None None None pos 0)) (yynode st) (stack st)) a prio.
(** The end tokens at the end, 858-869. *)
Fixpoint unwind (s : list (nat * N)) (last : option nat) (h : heap) : heap :=
  match s with
  | [] => h
  | (n, _) :: s => unwind s (Some n) (match last with Some l => set_end h n (ce (cells h l)) | None => h end)
  end.

Section P.
Variable tab : optab.
(** The tokens; positions are tokenStream->index() - 1. *)
Variable tok : nat -> nat.
Variable eof : nat.
(** Whether the symbol is a start symbol: then EOF has to follow (341-347). *)
Variable start : bool.
(** The conditions for FIRST of the symbol and of the base symbol. *)
Variable entry btest : nat -> bool.
(** The parse function of the base symbol: the position after it.  Its tree is one
    node here, which covers the tokens it consumed. *)
Variable base : nat -> option nat.

Definition here (o : oper) (p : nat) : bool := Nat.eqb (tok p) (otok o) && ocond o p.
Definition pre_at (p : nat) : option pre := find (fun e => here (pop e) p) (tpre tab).
Definition post_at (p : nat) : option infix := find (fun e => here (iop e) p) (tpost tab).
Definition bin_at (p : nat) : option infix := find (fun e => here (iop e) p) (tbin tab).
Definition tern_at (p : nat) : option tern := find (fun e => here (top1 e) p) (ttern tab).
Definition paren_at (p : nat) : option (oper * oper) := find (fun e => here (fst e) p) (tparen tab).

(** What the loop and the function come to: [Brk] and [Ret] with the position;
    [No]: return false; [Bad]: undefined behaviour; [Out]: out of fuel. *)
Inductive result := Brk (st : state) (p : nat) | Ret (h : heap) (n p : nat) | No | Bad | Out.
(** After the loop. *)
Definition finish (r : result) : result :=
  match r with
  | Brk st p =>
    if start && negb (Nat.eqb (tok p) eof) then No
    else match yynode st with Some n => Ret (unwind (stack st) None (hp st)) n p | None => Bad end
  | _ => r
  end.
(** The loop 565-785 with expectOperator. *)
Fixpoint loop (fuel : nat) (expect : bool) (st : state) (p : nat) : result :=
  match fuel with
  | O => Out
  | S f =>
    let parse h p := if entry (tok p) then finish (loop f false (State h None []) p) else No in
    if expect then
      match post_at p with
      | Some e => match do_post (iprio e p) (ileft e p) st with Some st => loop f true st (S p) | None => Bad end
      | None =>
        match bin_at p with
        | Some e => match do_infix KBin (iprio e p) (ileft e p) st with Some (st, _) => loop f false st (S p) | None => Bad end
        | None =>
          match tern_at p with
          | Some e =>
            match do_infix KTern (tprio e p) (tleft e p) st with
            | Some (st, true) =>
              match parse (hp st) (S p), yynode st with
              | Ret h m q, Some a => if here (top2 e) q then loop f false (State (set2 h a m) (yynode st) (stack st)) (S q) else No
              | r, _ => r
              end
            | Some (st, false) => loop f false st (S p)
            | None => Bad
            end
          | None => Brk st p
          end
        end
      end
    else
      match pre_at p with
      | Some e => match do_pre (pprio e p) p st with Some st => loop f false st (S p) | None => Bad end
      | None =>
        match paren_at p with
        | Some (_, c) =>
          if entry (tok (S p)) then
            match parse (hp st) (S p) with
            | Ret h n q =>
              if here c q then
                let h := set_span h n (cs (cells h n) - 1) (S (ce (cells h n))) in
                match attach (State h (yynode st) (stack st)) n closed with Some st => loop f true st (S q) | None => Bad end
              else No
            | r => r
            end
          else No
        | None =>
          if btest (tok p) then
            match base p with
            | Some q =>
              match attach (State (alloc (hp st) (Cell KBase None None None p (q - 1))) (yynode st) (stack st)) (next (hp st)) closed with
              | Some st => loop f true st q
              | None => Bad
              end
            | None => No
            end
          else No
        end
      end
  end.
(** parseX(&node), 804-880. *)
Definition parse (fuel : nat) (h : heap) (p : nat) : result :=
  if entry (tok p) then finish (loop fuel false (State h None []) p) else No.
End P.
