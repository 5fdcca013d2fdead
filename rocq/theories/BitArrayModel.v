(** Model of BitArray (/repo/src/kdev-pg-bit-array.h lines 14-169) on a
    64-bit little-endian machine: the storage is a list of 64-bit words, a
    byte access goes to byte [j mod 8] of word [j / 8]. *)
From Coq Require Import List NArith ZArith Lia Bool PeanoNat.
From Verif Require Import Base.
Import ListNotations.
Local Open Scope N_scope.

Record bitarray := MkBits { bsize : N; words : list N }.

(** Lines 24-28. *)
Definition BPW : N := 64.
Definition nwords (n : N) : N := (n + BPW - 1) / BPW.

Definition ones64 : N := 18446744073709551615. (* ~size_t(0) *)

(** Lines 41-44: setZerosAtEnd.  [~size_t(0) << (BPW - mSize % BPW)]: for
    mSize % BPW = 0 the shift count is 64, undefined in C++; [ub] is whatever
    value the machine delivers then.  mSize = 0 accesses word -1 = fault. *)
Definition end_mask (ub : N) (n : N) : N :=
  if n mod BPW =? 0 then ub
  else N.land (N.shiftl ones64 (BPW - n mod BPW)) ones64.
Definition setZerosAtEnd (ub : N) (a : bitarray) : option bitarray :=
  if bsize a =? 0 then None
  else
    let i := N.to_nat (nwords (bsize a) - 1) in
    do w <- nth_error (words a) i;
    do ws <- replace (words a) i (N.land w (end_mask ub (bsize a)));
    Some (MkBits (bsize a) ws).

(** Lines 69-73: constructor. *)
Definition create (ub : N) (n : N) : option bitarray :=
  setZerosAtEnd ub (MkBits n (repeat 0 (N.to_nat (nwords n)))).

(** Byte access inside a word (little endian). *)
Definition byte_of (w : N) (j : N) : N := N.land (N.shiftr w (8 * j)) 255.
Definition set_byte (w : N) (j v : N) : N :=
  N.lor (N.ldiff w (N.shiftl 255 (8 * j))) (N.shiftl v (8 * j)).

Definition get_byte (a : bitarray) (k : N) : option N :=
  do w <- nth_error (words a) (N.to_nat (k / 8)); Some (byte_of w (k mod 8)).
Definition put_byte (a : bitarray) (k v : N) : option bitarray :=
  do w <- nth_error (words a) (N.to_nat (k / 8));
  do ws <- replace (words a) (N.to_nat (k / 8)) (set_byte w (k mod 8) v);
  Some (MkBits (bsize a) ws).

(** Lines 127-132 and 52-55: reading a bit.  The bound check only prints a
    message, so an access is a fault only outside the storage. *)
Definition get (a : bitarray) (x : N) : option bool :=
  do b <- get_byte a (N.shiftr x 3);
  let m := N.shiftl 1 (N.land x 7) in
  Some (N.land b m =? m).

(** Lines 133-138 and 56-63: writing a bit ([~(1 << bit)] cut to a byte). *)
Definition set (a : bitarray) (x : N) (v : bool) : option bitarray :=
  do b <- get_byte a (N.shiftr x 3);
  let m := N.shiftl 1 (N.land x 7) in
  put_byte a (N.shiftr x 3) (if v then N.lor b m else N.land b (N.ldiff 255 m)).

(** Lines 104-117. *)
Fixpoint words_eq (u v : list N) : bool :=
  match u, v with
  | x :: u', y :: v' => if negb (x =? y) then false else words_eq u' v'
  | _, _ => true
  end.
Definition eqb (a b : bitarray) : bool :=
  if negb (bsize b =? bsize a) then false
  else if bsize a =? 0 then true
  else words_eq (words a) (words b).

(** Lines 82-99. *)
Fixpoint words_lt (u v : list N) : bool :=
  match u, v with
  | x :: u', y :: v' => if x <? y then true else if y <? x then false else words_lt u' v'
  | _, _ => false
  end.
Definition ltb (a b : bitarray) : bool :=
  if bsize a <? bsize b then true
  else if bsize b <? bsize a then false
  else if bsize a =? 0 then false
  else words_lt (words a) (words b).

(** Lines 158-167. *)
Definition hash_step (r w : N) : N :=
  let r1 := N.lxor r w in
  N.lor (N.shiftr r1 47) (N.land (N.shiftl r1 17) ones64).
Definition hash (a : bitarray) : N := fold_left hash_step (words a) 0.

(** Lines 139-147. *)
Definition resize (n : N) (a : bitarray) : bitarray :=
  let old := N.to_nat (nwords (bsize a)) in
  let new := N.to_nat (nwords n) in
  MkBits n (firstn new (words a) ++ repeat 0 (new - old)).

(** Client programs: construct, then write bits. *)
Fixpoint writes (l : list (N * bool)) (a : bitarray) : option bitarray :=
  match l with
  | [] => Some a
  | (x, v) :: r => do a' <- set a x v; writes r a'
  end.
Definition build (ub n : N) (l : list (N * bool)) : option bitarray :=
  do a <- create ub n; writes l a.
