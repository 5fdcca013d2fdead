(** Model of KDevPG::TokenStreamBase
    (/repo/src/include/kdev-pg-token-stream.h lines 41-242), of the read()
    of a generated lexer stream (/repo/src/kdev-pg-generate.cpp lines 714-739)
    and of the parser's yylex/LA/rewind
    (/repo/src/kdev-pg-code-gen.cpp lines 1081-1092). *)
From Coq Require Import List ZArith Lia Bool PeanoNat.
From Verif Require Import Base.
Import ListNotations.

(** kdev-pg-token-stream.h lines 41-46. *)
Record token := MkToken { kind : Z; tbegin : Z; tend : Z }.

(** Value-initialised token (push_back({}), line 144). *)
Definition token0 : token := MkToken 0 0 0.

(** push().kind = 1000, line 165. *)
Definition eof_token : token := MkToken 1000 (tbegin token0) (tend token0).

(** Lines 234-237.  [src] is the state of the producer of further tokens; the
    plain stream has none ([unit]), a generated lexer has its input position.
    The location table is modelled separately (LocationTableModel). *)
Record stream (L : Type) := MkStream { buf : list token; idx : nat; src : L }.
Arguments MkStream {L}. Arguments buf {L}. Arguments idx {L}. Arguments src {L}.

Section Source.
Context {L : Type}.
(** One run of the lexer function: at least one token is pushed (first
    component plus the list).  Plain stream: [fun u => (eof_token, [], u)],
    see [base_lex].  Simplification: the lexer action does not touch the
    stream index and always pushes before returning. *)
Variable lex : L -> token * list token * L.

(** Lines 59-64. *)
Definition empty_stream (l : L) : stream L := MkStream [] 0 l.

(** Line 97-100, 105-108. *)
Definition size (s : stream L) : nat := length (buf s).

(** Lines 78-81. *)
Definition reset (s : stream L) : stream L := MkStream (buf s) 0 (src s).

(** Lines 88-92. *)
Definition clear (s : stream L) : stream L := MkStream [] 0 (src s).

(** Lines 114-118; assertion violation = fault. *)
Definition rewind (i : nat) (s : stream L) : option (stream L) :=
  if Nat.leb i (size s) then Some (MkStream (buf s) i (src s)) else None.

(** Lines 123-136; the argument is signed. *)
Definition at_ (i : Z) (s : stream L) : option token :=
  if (i <? 0)%Z then None else nth_error (buf s) (Z.to_nat i).

(** Lines 152-156. *)
Definition push (t : token) (s : stream L) : stream L :=
  MkStream (buf s ++ [t]) (idx s) (src s).

(** Lines 161-168 for the plain stream; kdev-pg-generate.cpp 717 and 731/738
    for a lexer: buffered tokens first, otherwise produce. *)
Definition read (s : stream L) : option (token * stream L) :=
  let s1 := if Nat.eqb (idx s) (size s)
            then let '(t, ts, l) := lex (src s) in
                 MkStream (buf s ++ t :: ts) (idx s) l
            else s in
  do t <- nth_error (buf s1) (idx s1);
  Some (t, MkStream (buf s1) (S (idx s1)) (src s1)).

(** Lines 173-195. *)
Definition curr (s : stream L) : option token := nth_error (buf s) (idx s).
Definition back (s : stream L) : option token :=
  match buf s with [] => None | _ => Some (last (buf s) token0) end.
Definition front (s : stream L) : option token :=
  match buf s with [] => None | t :: _ => Some t end.

(** The loop of LA, kdev-pg-code-gen.cpp line 1083; fuel exhaustion = [None]. *)
Fixpoint la_loop (fuel : nat) (target : Z) (s : stream L) : option (stream L) :=
  if (target <? Z.of_nat (size s))%Z then Some s
  else match fuel with
       | O => None
       | S f => do (_, s') <- read s; la_loop f target s'
       end.

(** kdev-pg-code-gen.cpp lines 1082-1083. *)
Definition LA (k : Z) (s : stream L) : option (token * stream L) :=
  let target := (Z.of_nat (idx s) - 1 + k - 1)%Z in
  let oldidx := idx s in
  do s1 <- rewind (size s) s;
  do s2 <- la_loop (Z.to_nat (target + 1)) target s1;
  do s3 <- rewind oldidx s2;
  do t <- at_ target s3;
  Some (t, s3).

(** kdev-pg-code-gen.cpp lines 1085-1087 and 1088-1091; the parser state is
    the stream together with the current token kind [yytoken]. *)
Definition yylex (s : stream L) : option (Z * stream L) :=
  do (t, s') <- read s; Some (kind t, s').
Definition parser_rewind (i : nat) (s : stream L) : option (Z * stream L) :=
  do s' <- rewind i s; yylex s'.

(** A client of the stream; outputs are the delivered tokens. *)
Inductive op := Read | Look (k : Z) | Rewind (i : nat).

Fixpoint run (ops : list op) (s : stream L) : option (list token * stream L) :=
  match ops with
  | [] => Some ([], s)
  | Read :: r =>
    do (t, s1) <- read s; do (o, s2) <- run r s1; Some (t :: o, s2)
  | Look k :: r =>
    do (t, s1) <- LA k s; do (o, s2) <- run r s1; Some (t :: o, s2)
  | Rewind i :: r =>
    do s1 <- rewind i s; run r s1
  end.
End Source.

(** The plain stream: reading past the end produces EOF tokens. *)
Definition base_lex (u : unit) : token * list token * unit := (eof_token, [], u).

(** Clients of the plain stream that also modify it. *)
Inductive bop := BPush (t : token) | BRead | BRewind (i : nat) | BReset | BClear
  | BAt (i : Z) | BCurr | BBack | BFront.

(** Output: index of the token delivered and the token. *)
Definition bstep (o : bop) (s : stream unit) : option (list (nat * token) * stream unit) :=
  match o with
  | BPush t => Some ([], push t s)
  | BRead => do (t, s') <- read base_lex s; Some ([(idx s, t)], s')
  | BRewind i => do s' <- rewind i s; Some ([], s')
  | BReset => Some ([], reset s)
  | BClear => Some ([], clear s)
  | BAt i => do t <- at_ i s; Some ([(Z.to_nat i, t)], s)
  | BCurr => do t <- curr s; Some ([(idx s, t)], s)
  | BBack => do t <- back s; Some ([(size s - 1, t)], s)
  | BFront => do t <- front s; Some ([(0, t)], s)
  end.

Fixpoint brun (ops : list bop) (s : stream unit) : option (list (nat * token) * stream unit) :=
  match ops with
  | [] => Some ([], s)
  | o :: r => do (a, s1) <- bstep o s; do (b, s2) <- brun r s1; Some (a ++ b, s2)
  end.
