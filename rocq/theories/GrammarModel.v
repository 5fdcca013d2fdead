(** The grammar as the generator holds it, and the FIRST, FOLLOW and
    nullability computations
    (/repo/src/kdev-pg-ast.h 42-330, kdev-pg.h 150-313, kdev-pg.cpp 302-373,
    kdev-pg-bnf-visitor.cpp, kdev-pg-first.cpp, kdev-pg-follow.cpp). *)
From Coq Require Import List Bool PeanoNat.
From Verif Require Import Base.
Import ListNotations.

(** Nodes are told apart by their address; here by a number. *)
Definition id := nat.

(** The operators of an OperatorItem (ast.h 195-265) by the tokens they use. *)
Inductive op := OPre (t : id) | OPost (t : id) | OBin (t : id) | OTern (t u : id) | OParen (t u : id).

(** ast.h 42-330.  Names, code and declarations are left out: nothing computed
    here looks at them.  Plus, Star and Operator nodes carry the nodes that
    BnfVisitor makes for them on the first visit and keeps in mPlusStuff,
    mStarStuff and mOpStuff (bnf-visitor.cpp 71-240): here they are
    there from the beginning, which is the same, as they begin with empty
    sets. *)
Inductive node :=
| NZero
| NTerm
| NSym
| NNon (s : id)                     (* NonTerminalItem *)
| NInl (s : id)                     (* InlinedNonTerminalItem *)
| NPlus (i c a : id)
| NStar (i c a : id)
| NAct (i : option id)
| NAlt (l r : id)
| NCons (l r : id)
| NEvolve (i s : id)
| NTry (t : id) (c : option id)     (* None: try/recover *)
| NAnn (i : id)
| NCond (i : id)
| NOper (b : id) (ops : list op) (x : id)
| NOther.                           (* aliases, variable declarations *)

(** globalSystem (kdev-pg.h 79-313). *)
Record grammar := MkGrammar {
  gnodes : list node;
  gregular : nat;        (* nodes below it come from the parser, the others from BnfVisitor *)
  grules : list id;      (* rules, in the order of finishedParsing() *)
  gzero : id;            (* zero() *)
  gterms : list id;      (* terminals *)
  gstart : list id;      (* start *)
  geof : id              (* the terminal of follow.cpp 75 *)
}.

Section G.
Variable g : grammar.
Definition size : nat := length (gnodes g).
Definition kind (n : id) : node := nth n (gnodes g) NOther.
Definition is_zero (n : id) : bool := match kind n with NZero => true | _ => false end.
Definition is_term (n : id) : bool := match kind n with NTerm => true | _ => false end.
Definition mem (n : id) (l : list id) : bool := existsb (Nat.eqb n) l.
Definition rule_of (s e : id) : bool := match kind e with NEvolve _ s' => Nat.eqb s s' | _ => false end.
(** searchRule, kdev-pg.h 278-284; the binary search is looked at in DeclModel. *)
Definition search_rule (s : id) : option id := find (rule_of s) (grules g).

(** FIRST and FOLLOW: for every node a set of nodes. *)
Definition table := id -> id -> bool.
Definition upd (f : table) (n : id) (s : id -> bool) : table := fun m => if Nat.eqb m n then s else f m.

(** reducesToEpsilon(node, v), kdev-pg.cpp 302-367, with the set of nodes
    visited so far.  [None]: out of fuel. *)
Fixpoint eps_visit (fuel : nat) (first : table) (n : id) (v : list id) : option (bool * list id) :=
  match fuel with
  | 0 => None
  | S f =>
    if mem n v then Some (true, v)
    else
      let v := n :: v in
      match kind n with
      | NCons l r => do p <- eps_visit f first l v; if fst p then eps_visit f first r (snd p) else Some (false, snd p)
      | NOper _ _ _ => Some (false, v)
      | NAlt l r => do p <- eps_visit f first l v; if fst p then Some (true, snd p) else eps_visit f first r (snd p)
      | NAct (Some i) => eps_visit f first i v
      | NAct None => Some (true, v)
      | NCond i => eps_visit f first i v
      | NTry t c =>
        do p <- eps_visit f first t v;
        if fst p then Some (true, snd p)
        else match c with Some c => eps_visit f first c (snd p) | None => Some (false, snd p) end
      | NAnn i => eps_visit f first i v
      | NNon s | NInl s => eps_visit f first s v
      | NSym => Some (first n (gzero g), v)
      | NPlus i _ _ => eps_visit f first i v
      | NStar _ _ _ => Some (true, v)
      | NZero => Some (true, v)
      | NTerm | NEvolve _ _ | NOther => Some (false, v)
      end
  end.
(** 369-373.  The fuel is enough: see eps_total. *)
Definition eps (first : table) (n : id) : bool :=
  match eps_visit (S (S size)) first n [] with Some (b, _) => b | None => false end.

(** ** FIRST *)
(** initializeFirst, first.cpp 16-25. *)
Definition first_init : table := fun n x => Nat.eqb n x && (Nat.eqb n (gzero g) || mem n (gterms g)).
(** merge, 45-65, with mMergeZeroBlocked; the pair is the table and mChanged. *)
Definition news (f : table) (d : id) (add : id -> bool) : bool := existsb (fun x => add x && negb (f d x)) (seq 0 size).
Definition add_to (st : table * bool) (d : id) (add : id -> bool) : table * bool :=
  if news (fst st) d add then (upd (fst st) d (fun x => fst st d x || add x), true) else st.
Definition fmerge (blocked : bool) (st : table * bool) (d s : id) : table * bool :=
  add_to st d (fun x => fst st s x && negb (blocked && is_zero x)).
Definition fmerge_opt (blocked : bool) (st : table * bool) (d : id) (s : option id) : table * bool :=
  match s with Some s => fmerge blocked st d s | None => st end.

(** NextFirst, 67-108, over BnfVisitor (bnf-visitor.cpp 45-292).
    [first_visit] is the virtual visitNode with mVisited (the nodes on the way
    down; [path]); [first_node] is what the qualified calls
    DefaultVisitor::visitNode reach directly.  mMergeZeroBlocked is restored
    on the way back and therefore passed down. *)
Fixpoint first_node (fuel : nat) (blocked : bool) (path : list id) (n : id) (st : table * bool) : option (table * bool) :=
  match fuel with
  | 0 => None
  | S f =>
    let visit b m st := if mem m path then Some st else first_node f b (m :: path) m st in
    match kind n with
    | NZero | NTerm | NSym | NOther => Some st
    | NNon s | NInl s => Some (fmerge_opt blocked (fmerge blocked st n s) n (search_rule s))
    | NPlus _ c _ => do st <- first_node f blocked path c st; Some (fmerge blocked st n c)
    | NStar _ _ a => do st <- first_node f blocked path a st; Some (fmerge blocked st n a)
    | NOper _ _ x => do st <- first_node f blocked path x st; Some (fmerge blocked st n x)
    | NAct (Some i) => do st <- first_node f blocked path i st; Some (fmerge blocked st n i)
    | NAct None => Some st
    | NAnn i | NCond i => do st <- visit blocked i st; Some (fmerge blocked st n i)
    | NTry t None => do st <- first_node f blocked path t st; Some (fmerge blocked st n t)
    | NAlt l r | NTry l (Some r) =>
      do st <- visit blocked l st;
      do st <- visit blocked r st;
      Some (fmerge blocked (fmerge blocked st n l) n r)
    | NCons l r =>
      do st <- visit blocked r st;
      let b := if eps (fst st) r then blocked else true in
      do st <- visit b l st;
      let st := fmerge b st n l in
      if eps (fst st) l then
        do st <- visit b r st;
        Some (fmerge b st n r)
      else Some st
    | NEvolve i s =>
      do st <- visit blocked i st;
      Some (fmerge blocked (fmerge blocked st n i) s n)
    end
  end.
(** operator(), 31-36. *)
Definition first_rule (fuel : nat) (e : id) (st : table * bool) : option (table * bool) := first_node fuel false [e] e st.
Fixpoint each_rule (f : id -> table * bool -> option (table * bool)) (l : list id) (st : table * bool) : option (table * bool) :=
  match l with [] => Some st | e :: l => do st <- f e st; each_rule f l st end.
(** computeFirst, 110-124; [rounds] bounds the while loop, [fuel] the depth. *)
Fixpoint first_loop (rounds fuel : nat) (t : table) : option table :=
  match rounds with
  | 0 => None
  | S k =>
    do st <- each_rule (first_rule fuel) (grules g) (t, false);
    if snd st then first_loop k fuel (fst st) else Some (fst st)
  end.
Definition compute_first (rounds fuel : nat) : option table := first_loop rounds fuel first_init.

(** ** FOLLOW *)
(** merge, follow.cpp 95-116.  The dependencies recorded for messages are left
    out. *)
Definition omerge (st : table * bool) (d : id) (s : id -> bool) : table * bool :=
  if is_zero d || is_term d then st else add_to st d (fun x => s x && is_term x).
Definition omerge_opt (st : table * bool) (d : option id) (n : id) : table * bool :=
  match d with Some d => omerge st d (fst st n) | None => st end.
(** follow(to) into follow(from): preCopy, 160-167. *)
Definition down (st : table * bool) (d n : id) : table * bool := omerge st d (fst st n).
(** NextFollow, 118-167, over BnfVisitor as above. *)
Fixpoint follow_node (fuel : nat) (first : table) (path : list id) (n : id) (st : table * bool) : option (table * bool) :=
  match fuel with
  | 0 => None
  | S f =>
    let visit m st := if mem m path then Some st else follow_node f first (m :: path) m st in
    match kind n with
    | NZero | NTerm | NSym | NOther => Some st
    | NNon s | NInl s => Some (down (omerge_opt st (search_rule s) n) s n)
    | NPlus _ c _ => follow_node f first path c (down st c n)
    | NStar _ _ a => follow_node f first path a (down st a n)
    | NOper _ _ x => follow_node f first path x (down st x n)
    | NAct (Some i) => follow_node f first path i (down st i n)
    | NAct None => Some st
    | NAnn i | NCond i => visit i (down st i n)
    | NTry t None => follow_node f first path t (down st t n)
    | NAlt l r | NTry l (Some r) =>
      do st <- visit l (down (down st l n) r n);
      visit r st
    | NCons l r =>
      let st := omerge (down st r n) l (first r) in
      let st := if eps first r then down st l n else st in
      do st <- visit l st;
      visit r st
    | NEvolve i s => visit i (down (down st n s) i n)
    end
  end.
Definition follow_rule (fuel : nat) (first : table) (e : id) (st : table * bool) : option (table * bool) := follow_node fuel first [e] e st.
(** The constructor, 72-85. *)
Definition follow_init : table := fun n x =>
  Nat.eqb x (geof g) &&
  existsb (fun e => match kind e with NEvolve i s => mem s (gstart g) && (Nat.eqb n e || Nat.eqb n s || Nat.eqb n i) | _ => false end) (grules g).
(** computeFollow, 205-219; [changed] is true in the first round. *)
Fixpoint follow_loop (rounds fuel : nat) (first : table) (st : table * bool) : option table :=
  match rounds with
  | 0 => None
  | S k =>
    do st <- each_rule (follow_rule fuel first) (grules g) st;
    if snd st then follow_loop k fuel first (fst st, false) else Some (fst st)
  end.
Definition compute_follow (rounds fuel : nat) (first : table) : option table := follow_loop rounds fuel first (follow_init, true).
End G.
