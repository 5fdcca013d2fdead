(** What clients of a zeroing arena rely on. *)
From Coq Require Import List ZArith.
From Verif Require Import MemoryPoolModel.
Import ListNotations.
Local Open Scope Z_scope.

(** Stores go to the client's own regions, sizes are not negative (they are
    size_t). [n] sizes of the regions so far. *)
Fixpoint polite (sizes : list Z) (ops : list op) : Prop :=
  match ops with
  | [] => True
  | Alloc size :: r => 0 <= size /\ polite (sizes ++ [size]) r
  | Store k o v :: r =>
    (exists s, nth_error sizes k = Some s /\ 0 <= o < s) /\ polite sizes r
  end.

(** Two regions share no byte. *)
Definition disjoint (a b : region) : Prop :=
  let '(i, o, s) := a in let '(j, q, t) := b in
  i <> j \/ o + s <= q \/ q + t <= o.

(** The region lies inside a block the pool still owns. *)
Definition inside (p : pool) (a : region) : Prop :=
  let '(i, o, s) := a in
  exists b, nth_error (chain p) i = Some b /\ 0 <= o /\ o + s <= bend b.

Fixpoint total (ops : list op) : Z :=
  match ops with
  | [] => 0
  | Alloc size :: r => size + total r
  | _ :: r => total r
  end.
