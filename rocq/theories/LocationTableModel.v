(** Model of KDevPG::LocationTable
    (/repo/src/include/kdev-pg-location-table.h lines 18-117). *)
From Coq Require Import List ZArith Lia Bool.
From Verif Require Import Base.
Import ListNotations.
Local Open Scope Z_scope.

(** kdev-pg-location-table.h lines 104-112: the heap buffer [lines] (an
    uninitialised cell is [None]), [lineCount] is the length of the buffer,
    [currentLine], [lastLine]. *)
Record table := MkTable {
  cells : list (option Z);
  currentLine : nat;
  lastLine : nat }.

(** lines[i] as an rvalue: outside the buffer or uninitialised = undefined
    behaviour = [None]. *)
Definition getLine (t : table) (i : nat) : option Z :=
  match nth_error (cells t) i with
  | Some (Some v) => Some v
  | _ => None
  end.

(** kdev-pg-location-table.h lines 36-41 (resize).  Q_ASSERT(size > 0)
    violated = fault.  Simplification: realloc never fails. *)
Definition resize (n : nat) (t : table) : option table :=
  match n with
  | O => None
  | _ => Some (MkTable (firstn n (cells t) ++ repeat None (n - length (cells t)))
                       (currentLine t) (lastLine t))
  end.

(** kdev-pg-location-table.h lines 21-26 (constructor). *)
Definition create (n : nat) : option table :=
  do t <- resize n (MkTable [] 0 0);
  do c <- replace (cells t) 0 (Some 0);
  Some (MkTable c 1 0).

(** kdev-pg-location-table.h lines 93-99 (newline).  offset+1 overflowing
    qint64 = fault. *)
Definition newline (o : Z) (t : table) : option table :=
  do t1 <- (if Nat.eqb (currentLine t) (length (cells t))
            then resize (currentLine t * 2) t else Some t);
  if o + 1 <=? int64_max then
    do c <- replace (cells t1) (currentLine t1) (Some (o + 1));
    Some (MkTable c (S (currentLine t1)) (lastLine t1))
  else None.

(** std::lower_bound(lines, lines+currentLine, offset), the usual halving
    loop (libstdc++ __lower_bound); line 73.  [fuel] bounds the number of
    iterations, running out = [None]. *)
Fixpoint lowerBound (fuel : nat) (t : table) (first len : nat) (x : Z) : option nat :=
  match len with
  | O => Some first
  | _ =>
    match fuel with
    | O => None
    | S f =>
      let half := Nat.div2 len in
      do v <- getLine t (first + half);
      if v <? x then lowerBound f t (first + half + 1) (len - half - 1) x
      else lowerBound f t first half x
    end
  end.

(** kdev-pg-location-table.h lines 46-87 (positionAt): the answer (line,
    column) and the table with the updated mutable [lastLine]. *)
Definition positionAt (x : Z) (t : table) : option ((Z * Z) * table) :=
  if x <? 0 then Some ((-1, -1), t)
  else
    match currentLine t with
    | O => None
    | S top =>
      do vtop <- getLine t top;
      if vtop <? x then Some ((Z.of_nat top, x - vtop), t)
      else
        do i <- (if Nat.ltb (lastLine t + 1) (currentLine t) then
                   do a <- getLine t (lastLine t);
                   if a <=? x then
                     do b <- getLine t (lastLine t + 1);
                     if x <? b then Some (Some (lastLine t))
                     else if Nat.ltb (lastLine t + 2) (currentLine t) then
                       do c <- getLine t (lastLine t + 2);
                       if x <? c then Some (Some (lastLine t + 1)%nat) else Some None
                     else Some None
                   else Some None
                 else Some None);
        match i with
        | None =>
          do it <- lowerBound (currentLine t) t 0 (currentLine t) x;
          if Nat.eqb it (currentLine t) then None (* Q_ASSERT, line 74 *)
          else
            do v <- getLine t it;
            do it' <- (if v =? x then Some it
                       else match it with O => None | S p => Some p end);
            do v' <- getLine t it';
            Some ((Z.of_nat it', x - v'), MkTable (cells t) (currentLine t) it')
        | Some i =>
          do v <- getLine t i;
          Some ((Z.of_nat i, x - v), MkTable (cells t) (currentLine t) i)
        end
    end.

(** Client programs over the public interface. *)
Inductive op := Newline (o : Z) | Query (x : Z) | Resize (n : nat).

Fixpoint run (ops : list op) (t : table) : option (list (Z * Z) * table) :=
  match ops with
  | [] => Some ([], t)
  | Newline o :: r => do t' <- newline o t; run r t'
  | Resize n :: r => do t' <- resize n t; run r t'
  | Query x :: r =>
    do (a, t') <- positionAt x t;
    do (l, t'') <- run r t';
    Some (a :: l, t'')
  end.
