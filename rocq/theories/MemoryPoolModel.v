(** Model of KDevPG::BlockType / MemoryPool
    (/repo/src/include/kdev-pg-memory-pool.h lines 19-88).
    An address is (block number, offset): different malloc'ed blocks never
    overlap.  Simplifications: malloc never fails; [ptr + size] does not wrap
    around the address space; destroy() is not modelled. *)
From Coq Require Import List ZArith Lia Bool PeanoNat.
From Verif Require Import Base.
Import ListNotations.
Local Open Scope Z_scope.

(** Lines 22-26: blockSize, ptr - data, and the bytes ([None] =
    uninitialised).  [end - data] is the [int] argument of init. *)
Record blk := MkBlk { blockSize : Z; bend : Z; ptr : Z; bytes : Z -> option Z }.

(** Conversion qint64 -> int (two's complement), implicit in the call
    [init0(blockSize << 2)], line 60. *)
Definition to_int32 (x : Z) : Z :=
  (x + 2147483648) mod 4294967296 - 2147483648.

(** Lines 28-41: init0(block_size): malloc + memset.  memset with a negative
    size would be undefined; it cannot occur, see the proofs. *)
Definition init0 (n : Z) : blk :=
  MkBlk n n 0 (fun o => if (0 <=? o) && (o <? n) then Some 0 else None).

(** The chain (data flow of [chain] pointers) and the position of
    [rightMost] in it; lines 80-83. *)
Record pool := MkPool { chain : list blk; rightMost : nat }.
Definition new_pool : pool := MkPool [init0 256] 0.

(** Lines 53-73: BlockType::allocate on the block at position [i]; recursion
    into the chain bounded by [fuel] (None = does not return). *)
Fixpoint allocate (fuel : nat) (size : Z) (i : nat) (c : list blk) : option (nat * Z * list blk) :=
  match fuel with
  | O => None
  | S f =>
    do b <- nth_error c i;
    if bend b <? ptr b + size then
      let c' := if Nat.ltb (S i) (length c) then c
                else c ++ [init0 (to_int32 (blockSize b * 4))] in
      allocate f size (S i) c'
    else
      do c' <- replace c i (MkBlk (blockSize b) (bend b) (ptr b + size) (bytes b));
      Some (i, ptr b, c')
  end.

(** Lines 86-87. *)
Definition pool_allocate (fuel : nat) (size : Z) (p : pool) : option ((nat * Z) * pool) :=
  do (i, o, c) <- allocate fuel size (rightMost p) (chain p);
  Some ((i, o), MkPool c i).

(** A client stores a byte at an address. *)
Definition store (i : nat) (o v : Z) (p : pool) : option pool :=
  do b <- nth_error (chain p) i;
  do c <- replace (chain p) i (MkBlk (blockSize b) (bend b) (ptr b)
            (fun o' => if o' =? o then Some v else bytes b o'));
  Some (MkPool c (rightMost p)).

Definition load (i : nat) (o : Z) (p : pool) : option Z :=
  do b <- nth_error (chain p) i; bytes b o.

(** Client programs: allocate [size] bytes, or store [v] at offset [o] of the
    [r]-th region obtained so far (regions: block, offset, size). *)
Inductive op := Alloc (size : Z) | Store (r : nat) (o v : Z).
Notation region := (nat * Z * Z)%type.

Fixpoint run (fuel : nat) (ops : list op) (regs : list region) (p : pool)
  : option (list region * pool) :=
  match ops with
  | [] => Some (regs, p)
  | Alloc size :: r =>
    do (a, p') <- pool_allocate fuel size p;
    run fuel r (regs ++ [(fst a, snd a, size)]) p'
  | Store k o v :: r =>
    do (i, b, size) <- nth_error regs k;
    do p' <- store i (b + o) v p;
    run fuel r regs p'
  end.
