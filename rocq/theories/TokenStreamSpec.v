(** A token stream as an infinite sequence with a cursor. *)
From Coq Require Import List ZArith Lia Bool PeanoNat.
From Verif Require Import TokenStreamModel.
Import ListNotations.

Section Spec.
Context {L : Type} (lex : L -> token * list token * L).

(** Everything the lexer delivers in its first [n] runs. *)
Fixpoint produced (n : nat) (l : L) : list token :=
  match n with
  | O => []
  | S m => let '(t, ts, l') := lex l in t :: ts ++ produced m l'
  end.

(** The i-th token of the input (every run delivers at least one). *)
Definition input_token (l : L) (i : nat) : token := nth i (produced (S i) l) token0.

(** What a client sees: only the cursor matters.  [f] = the input. *)
Fixpoint view (f : nat -> token) (cur : nat) (ops : list op) : list token :=
  match ops with
  | [] => []
  | Read :: r => f cur :: view f (S cur) r
  | Look k :: r => f (Z.to_nat (Z.of_nat cur + k - 2)) :: view f cur r
  | Rewind i :: r => view f i r
  end.

Fixpoint cursor (cur : nat) (ops : list op) : nat :=
  match ops with
  | [] => cur
  | Read :: r => cursor (S cur) r
  | Look _ :: r => cursor cur r
  | Rewind i :: r => cursor i r
  end.

(** Client obligations: look at existing positions only, rewind only to
    positions reached before ([hi] = largest index reached). *)
Fixpoint legal (hi cur : nat) (ops : list op) : Prop :=
  match ops with
  | [] => True
  | Read :: r => legal (Nat.max hi (S cur)) (S cur) r
  | Look k :: r => (2 <= Z.of_nat cur + k)%Z /\ legal hi cur r
  | Rewind i :: r => i <= hi /\ legal hi i r
  end.
End Spec.

(** Plain stream: a list of tokens followed by EOF tokens for ever. *)
Definition then_eof (ts : list token) (i : nat) : token := nth i ts (MkToken 1000 0 0).

(** Obligations of clients that modify a plain stream, by size and index
    alone. *)
Definition bsize (o : bop) (n i : nat) : nat * nat :=
  match o with
  | BPush _ => (S n, i)
  | BRead => (Nat.max n (S i), S i)
  | BRewind j => (n, j)
  | BReset => (n, 0)
  | BClear => (0, 0)
  | _ => (n, i)
  end.
Definition bpre (o : bop) (n i : nat) : Prop :=
  match o with
  | BRewind j => j <= n
  | BAt j => (0 <= j < Z.of_nat n)%Z
  | BCurr => i < n
  | BBack | BFront => 0 < n
  | _ => True
  end.
Fixpoint blegal (ops : list bop) (n i : nat) : Prop :=
  match ops with
  | [] => True
  | o :: r => bpre o n i /\ blegal r (fst (bsize o n i)) (snd (bsize o n i))
  end.
(** Tokens in the stream after the program, given those before. *)
Fixpoint bcontent (ops : list bop) (l : list token) (i : nat) : list token :=
  match ops with
  | [] => l
  | BPush t :: r => bcontent r (l ++ [t]) i
  | BRead :: r => bcontent r (if Nat.ltb i (length l) then l else l ++ [MkToken 1000 0 0]) (S i)
  | BRewind j :: r => bcontent r l j
  | BReset :: r => bcontent r l 0
  | BClear :: r => bcontent r [] 0
  | _ :: r => bcontent r l i
  end.
