(** What a lexer should do. *)
From Coq Require Import List NArith ZArith.
From Verif Require Import LexerModel.
Import ListNotations.

Section S.
Variable nxt : nat -> option (N * nat).
(** Reading the characters [w] moves from position [p] to [q]. *)
Inductive reads : nat -> list N -> nat -> Prop :=
| reads_nil p : reads p [] p
| reads_cons p c p' w q : nxt p = Some (c, p') -> reads p' w q -> reads p (c :: w) q.

(** A proper iterator over [len] units: every character takes at least one
    unit, the input is over exactly at the end. *)
Definition proper_iter (len : nat) : Prop :=
  (forall p, p < len -> exists c p', nxt p = Some (c, p') /\ p < p' <= len) /\ (forall p, len <= p -> nxt p = None).

(** The languages of the rules, in the order written. *)
Variable rules : list (list N -> Prop).
Definition matches (k : nat) (w : list N) : Prop := exists L, nth_error rules k = Some L /\ L w.
(** [w] is the longest match at [p], [k] the first rule having it. *)
Definition longest (p : nat) (k : nat) (w : list N) (q : nat) : Prop :=
  reads p w q /\ matches k w /\ (forall j, j < k -> ~ matches j w) /\
  forall j w' q', reads p w' q' -> matches j w' -> length w' <= length w.
Definition no_match (p : nat) : Prop := forall j w q, reads p w q -> ~ matches j w.

(** One token, from position [p] within a lexeme begun at [s], up to [q]. *)
Variable acts : list action.
Inductive next_token : nat -> nat -> token -> nat -> Prop :=
| NT_eof s p : nxt p = None -> next_token s p (eof_at p) p
| NT_fail s p : nxt p <> None -> no_match p -> next_token s p (eof_at p) p
| NT_return s p k w q n kind : nxt p <> None -> longest p k w q -> nth_error acts k = Some (MkAction n (Return kind)) ->
    next_token s p (tok_at kind s (q - n)) (q - n)
| NT_skip s p k w q n t r : nxt p <> None -> longest p k w q -> nth_error acts k = Some (MkAction n Skip) ->
    next_token (q - n) (q - n) t r -> next_token s p t r
| NT_continue s p k w q n t r : nxt p <> None -> longest p k w q -> nth_error acts k = Some (MkAction n Continue) ->
    next_token s (q - n) t r -> next_token s p t r.
End S.

(** Consecutive non-empty pieces of the input from [p] to [q]; those that
    became tokens carry the kind. *)
Inductive pieces : nat -> list (nat * nat * option N) -> nat -> Prop :=
| pieces_nil p : pieces p [] p
| pieces_cons p e k l q : p < e -> pieces e l q -> pieces p ((p, e, k) :: l) q.
Fixpoint tokens_of (l : list (nat * nat * option N)) : list token :=
  match l with
  | [] => []
  | (b, e, Some k) :: r => MkToken k (Z.of_nat b) (Z.of_nat e - 1) :: tokens_of r
  | (_, _, None) :: r => tokens_of r
  end.

(** Every rule is the first one for some word; some word without action can be
    continued to one with an action. *)
Definition used (ls : list (list N -> Prop)) : Prop :=
  (forall k, k < length ls -> exists w, matches ls k w /\ forall j, j < k -> ~ matches ls j w) /\
  exists u v j, (forall i, ~ matches ls i u) /\ matches ls j (u ++ v).
(** The parts of the matched text. *)
Definition consumed (w : list N) (n : nat) : list N := firstn (length w - n) w.
(** ** Barrier *)
Definition inside (P : list N -> Prop) (w : list N) : Prop := exists x y z, w = x ++ y ++ z /\ P y.
