(** Model of KDevPG::ListNode and snoc
    (/repo/src/include/kdev-pg-list.h lines 16-80).
    Heap: node id = position in the list of nodes; nodes come from the memory
    pool and are never freed while the lists are used.  Simplification: the
    [int] index is a [nat] (no overflow below 2^31 elements). *)
From Coq Require Import List Lia Bool PeanoNat.
From Verif Require Import Base.
Import ListNotations.

Section M.
Context {A : Type}.

(** Lines 19-21. *)
Record node := MkNode { element : A; index : nat; next : nat }.
Definition heap := list node.

(** Lines 23-31: create(element). *)
Definition create1 (e : A) (h : heap) : nat * heap :=
  (length h, h ++ [MkNode e 0 (length h)]).

(** Lines 33-42: create(n1, element). *)
Definition create2 (n1 : nat) (e : A) (h : heap) : option (nat * heap) :=
  let '(n2, h1) := create1 e h in
  do d1 <- nth_error h1 n1;
  do h2 <- replace h1 n2 (MkNode e (index d1 + 1) (next d1));
  do d1' <- nth_error h2 n1;
  do h3 <- replace h2 n1 (MkNode (element d1') (index d1') n2);
  Some (n2, h3).

(** Lines 53-54. *)
Definition hasNext (h : heap) (n : nat) : option bool :=
  do d <- nth_error h n;
  do d' <- nth_error h (next d);
  Some (Nat.ltb (index d) (index d')).

(** Lines 62-69; [None] also when the fuel does not suffice. *)
Fixpoint back_loop (fuel : nat) (h : heap) (n : nat) : option nat :=
  match fuel with
  | O => None
  | S f =>
    do b <- hasNext h n;
    if b then do d <- nth_error h n; back_loop f h (next d) else Some n
  end.
Definition back (h : heap) (n : nat) : option nat := back_loop (S (length h)) h n.

(** Lines 59-60. *)
Definition front (h : heap) (n : nat) : option nat :=
  do b <- back h n; do d <- nth_error h b; Some (next d).

(** Lines 56-57. *)
Definition count (h : heap) (n : nat) : option nat :=
  do b <- back h n; do d <- nth_error h b; Some (1 + index d).

(** Lines 44-51. *)
Fixpoint at_loop (fuel : nat) (h : heap) (i n : nat) : option nat :=
  match fuel with
  | O => None
  | S f =>
    do d <- nth_error h n;
    if Nat.eqb i (index d) then Some n else at_loop f h i (next d)
  end.
Definition at_ (h : heap) (i n : nat) : option nat := at_loop (S (length h)) h i n.

(** Lines 72-80; [None] = the null list. *)
Definition snoc (l : option nat) (e : A) (h : heap) : option (nat * heap) :=
  match l with
  | None => Some (create1 e h)
  | Some n => do b <- back h n; create2 b e h
  end.

(** The usual client loop (/repo/src/kdev-pg-default-visitor-bits-gen.cpp,
    iteration over a sequence): visit [n], follow next until back at the
    start node. *)
Fixpoint walk (fuel : nat) (h : heap) (stop n : nat) : option (list A) :=
  match fuel with
  | O => None
  | S f =>
    do d <- nth_error h n;
    if Nat.eqb (next d) stop then Some [element d]
    else do r <- walk f h stop (next d); Some (element d :: r)
  end.
Definition elements (h : heap) (n : nat) : option (list A) :=
  do f <- front h n; walk (S (length h)) h f f.

(** Client programs over several lists living in one heap: [Snoc l k e]
    appends [e] to list [l] through the k-th node returned for that list
    (k counted modulo the number of nodes, so every k denotes a node). *)
Inductive op := Snoc (l : nat) (k : nat) (e : A).

Definition handles := nat -> list nat.
Definition upd (hs : handles) (l : nat) (v : list nat) : handles :=
  fun l' => if Nat.eqb l' l then v else hs l'.

Definition handle (ids : list nat) (k : nat) : option nat :=
  match ids with [] => None | _ => nth_error ids (k mod length ids) end.

Fixpoint run (ops : list op) (hs : handles) (h : heap) : option (handles * heap) :=
  match ops with
  | [] => Some (hs, h)
  | Snoc l k e :: r =>
    do (n, h') <- snoc (handle (hs l) k) e h;
    run r (upd hs l (hs l ++ [n])) h'
  end.
End M.
Arguments node : clear implicits. Arguments heap : clear implicits. Arguments op : clear implicits.
