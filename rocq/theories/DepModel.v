(** The explanation of FIRST/FOLLOW conflicts: the dependencies that
    computeFollow records (/repo/src/kdev-pg-follow.cpp 118-203, kdev-pg.h
    94-102 and 293-294) and FollowDepChecker (/repo/src/kdev-pg-checker.cpp
    153-230). *)
From Coq Require Import List Bool PeanoNat.
From Verif Require Import Base GrammarModel.
Import ListNotations.

(** World::FollowDeps: [(true, (n, m))]: FIRST of [m] goes into FOLLOW of [n];
    [(false, (n, m))]: FOLLOW of [m] does. *)
Definition deps := list (bool * (id * id)).

Section G.
Variable g : grammar.
(** addFirstToFollowDep, addFollowToFollowDep, follow.cpp 176-203: what is
    noted for a nonterminal is noted for its symbol. *)
Definition key (n : id) : id := match kind g n with NNon s => s | _ => n end.
Definition from_first (d m : id) : deps := [(true, (key d, m))].
Definition from_follow (d m : id) : deps := [(false, (key d, m))].

(** What one walk of NextFollow notes, 118-174: the walk of follow_node.  It is
    the same in every round, so the sets do not grow after the first. *)
Fixpoint dep_node (fuel : nat) (first : table) (path : list id) (n : id) : option deps :=
  match fuel with
  | 0 => None
  | S f =>
    let visit m := if mem m path then Some [] else dep_node f first (m :: path) m in
    match kind g n with
    | NZero | NTerm | NSym | NOther => Some []
    | NNon s | NInl s => Some (match search_rule g s with Some e => from_follow e n | None => [] end ++ from_follow s n)
    | NPlus _ c _ => do d <- dep_node f first path c; Some (from_follow c n ++ d)
    | NStar _ _ a => do d <- dep_node f first path a; Some (from_follow a n ++ d)
    | NOper _ _ x => do d <- dep_node f first path x; Some (from_follow x n ++ d)
    | NAct (Some i) => do d <- dep_node f first path i; Some (from_follow i n ++ d)
    | NAct None => Some []
    | NAnn i | NCond i => do d <- visit i; Some (from_follow i n ++ d)
    | NTry t None => do d <- dep_node f first path t; Some (from_follow t n ++ d)
    | NAlt l r | NTry l (Some r) => do d <- visit l; do e <- visit r; Some (from_follow l n ++ from_follow r n ++ d ++ e)
    | NCons l r =>
      do d <- visit l; do e <- visit r;
      Some (from_follow r n ++ from_first l r ++ (if eps g first r then from_follow l n else []) ++ d ++ e)
    | NEvolve i s => do d <- visit i; Some (from_follow n s ++ from_follow i n ++ d)
    end
  end.
Fixpoint dep_rules (fuel : nat) (first : table) (l : list id) : option deps :=
  match l with [] => Some [] | e :: l => do d <- dep_node fuel first [e] e; do ds <- dep_rules fuel first l; Some (d ++ ds) end.
Definition compute_deps (fuel : nat) (first : table) : option deps := dep_rules fuel first (grules g).
(** BnfVisitor::isInternal, bnf-visitor.cpp 11-14. *)
Definition internal (n : id) : bool := Nat.leb (gregular g) n && negb (Nat.eqb n (geof g)).
End G.

(** ** FollowDepChecker *)
Section C.
Variable inner : id -> bool.        (* isInternal *)
Variable has : id -> bool.          (* FIRST of the node has the terminal *)
Variable ds : deps.
(** followDep(n).first and .second; the order of QSet::values() is that of
    [ds], it does not matter below. *)
Definition picked (b : bool) (n : id) : list id :=
  nodup Nat.eq_dec (map (fun e => snd (snd e)) (filter (fun e => Bool.eqb (fst e) b && Nat.eqb (fst (snd e)) n) ds)).
Definition fresh (all l : list id) : list id := filter (fun m => negb (mem m all)) l.
(** The loop over FD, checker.cpp 173-211: [todo] is what comes from index [i]
    on.  The result: what is printed. *)
Fixpoint fd_loop (fuel : nat) (all todo : list id) : option (list id) :=
  match todo with
  | [] => Some []
  | x :: todo =>
    match fuel with
    | 0 => None
    | S f =>
      if inner x then
        let more := filter (fun m => negb (inner m)) (fresh all (picked true x)) ++ fresh all (picked false x) in
        fd_loop f (all ++ more) (todo ++ more)
      else do r <- fd_loop f all todo; Some (if has x then x :: r else r)
    end
  end.
(** The loop over FLD, 212-230; [call]: check(), which prints and adds to
    mVisited. *)
Fixpoint fld_loop (call : list id -> id -> option (list id * list id)) (fuel : nat) (all todo v : list id) : option (list id * list id) :=
  match todo with
  | [] => Some ([], v)
  | x :: todo =>
    match fuel with
    | 0 => None
    | S f =>
      if inner x then
        let more := fresh all (picked false x) in fld_loop call f (all ++ more) (todo ++ more) v
      else do p <- call v x; do q <- fld_loop call f all todo (snd p); Some (fst p ++ fst q, snd q)
    end
  end.
(** check, 153-172; [steps] bounds the loops, [fuel] the depth. *)
Fixpoint explain (steps fuel : nat) (v : list id) (n : id) : option (list id * list id) :=
  match fuel with
  | 0 => None
  | S f =>
    if mem n v then Some ([], v)
    else
      do r <- fd_loop steps (picked true n) (picked true n);
      do q <- fld_loop (explain steps f) steps (picked false n) (picked false n) (n :: v);
      Some (r ++ fst q, snd q)
  end.
End C.
