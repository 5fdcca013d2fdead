(** Model of KDevPG::Allocator
    (/repo/src/include/kdev-pg-allocator.h lines 19-133).
    [base i] is the address returned by the i-th [new char[sBlockSize]].
    Simplification: allocation never fails; destructor not modelled. *)
From Coq Require Import List ZArith Lia Bool PeanoNat.
From Verif Require Import Base.
Import ListNotations.
Local Open Scope Z_scope.

(** Line 133: sBlockSize. *)
Definition blockSize : Z := 65536.
Definition wrap (x : Z) : Z := x mod 18446744073709551616. (* size_t *)

(** Lines 125-128: sBlockIndex (size_t, initially size_t(-1)), sCurrentIndex,
    sCurrentBlock (null or not), number of entries of sStorage. *)
Record alloc := MkAlloc { blockIndex : Z; currentIndex : Z; hasBlock : bool; storage : nat }.

(** Lines 33-39. *)
Definition new_alloc : alloc := MkAlloc (wrap (-1)) 0 false 0.

(** Lines 68-93.  [tsize] = sizeof(_Tp). *)
Definition allocate (tsize n : Z) (a : alloc) : (nat * Z) * alloc :=
  let bytes := wrap (n * tsize) in
  let a1 := if negb (hasBlock a) || (blockSize <? wrap (currentIndex a + bytes))
            then MkAlloc (wrap (blockIndex a + 1)) 0 true (S (storage a))
            else a in
  ((storage a1 - 1, currentIndex a1)%nat,
   MkAlloc (blockIndex a1) (wrap (currentIndex a1 + bytes)) true (storage a1)).

(** Lines 51-57: the loop [for (i = 0; i <= sBlockIndex; ++i)].  sStorage[i]
    outside the allocated entries = fault; [fuel] bounds the iterations. *)
Fixpoint contains_loop (fuel : nat) (base : nat -> Z) (a : alloc) (i : nat) (p : Z) : option bool :=
  if Z.of_nat i <=? blockIndex a then
    match fuel with
    | O => None
    | S f =>
      if Nat.ltb i (storage a) then
        if (base i <=? p) && (p <? base i + blockSize) then Some true
        else contains_loop f base a (S i) p
      else None
    end
  else Some false.
Definition contains (base : nat -> Z) (a : alloc) (p : Z) : option bool :=
  contains_loop (S (storage a)) base a 0 p.

(** Client program: a list of element counts; results: (block, offset). *)
Fixpoint run (tsize : Z) (ns : list Z) (a : alloc) : list (nat * Z) * alloc :=
  match ns with
  | [] => ([], a)
  | n :: r => let '(p, a1) := allocate tsize n a in
              let '(ps, a2) := run tsize r a1 in (p :: ps, a2)
  end.
