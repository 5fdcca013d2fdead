(** How the beautifier reads the generated text: IteratorQTextStream
    (/repo/src/kdev-pg-beautifier.cpp 15-46, kdev-pg-beautifier.h 19-33) over a
    QTextStream on a string (kdev-pg-generate.cpp 50 and alike).  Its user,
    astyle::ASFormatter, is any sequence of calls.  Characters are the units of
    the QString; the encoding into std::string is left out. *)
From Coq Require Import List Bool PeanoNat.
From Verif Require Import Base.
Import ListNotations.

Definition lf : nat := 10.
Definition cr : nat := 13.
(** QTextStream::readLine: up to the next line feed, which is taken away,
    together with a carriage return before it.  Also the number of characters
    read. *)
Definition no_cr (found : bool) (l : list nat) : list nat :=
  match rev l with c :: r => if found && Nat.eqb c cr then rev r else l | [] => l end.
Fixpoint until_lf (t : list nat) : list nat * bool :=
  match t with
  | [] => ([], false)
  | c :: t => if Nat.eqb c lf then ([], true) else let (l, found) := until_lf t in (c :: l, found)
  end.
Definition read_line (t : list nat) : list nat * nat :=
  let (l, found) := until_lf t in (no_cr found l, length l + (if found then 1 else 0)).

(** The position of the stream (QTextStream::pos, seek) and m_peekStart, -1
    being None. *)
Record reader := RD { at_pos : nat; peek_start : option nat }.
Definition reader0 : reader := RD 0 None.                                            (* 15-19 *)
Section T.
Variable text : list nat.
(** 21-24 *)
Definition more_lines (r : reader) : bool := Nat.ltb (at_pos r) (length text).
(** 26-30 *)
Definition next_line (r : reader) : list nat * reader :=
  let (l, n) := read_line (skipn (at_pos r) text) in (l, RD (at_pos r + n) (peek_start r)).
(** toUtf8().data(), 37: a string up to the first NUL. *)
Fixpoint to_nul (l : list nat) : list nat := match l with [] => [] | c :: l => if Nat.eqb c 0 then [] else c :: to_nul l end.
(** 32-38 *)
Definition peek_line (r : reader) : list nat * reader :=
  let start := match peek_start r with None => Some (at_pos r) | s => s end in
  let (l, n) := read_line (skipn (at_pos r) text) in (to_nul l, RD (at_pos r + n) start).
(** 40-45; a position behind the end would not be gone to. *)
Definition peek_reset (r : reader) : reader :=
  match peek_start r with
  | Some p => RD (if Nat.leb p (length text) then p else at_pos r) None
  | None => RD (at_pos r) None
  end.

(** A sequence of calls and what they return. *)
Inductive call := Next | Peek | Unpeek | More.
Inductive answer := Line (l : list nat) | Peeked (l : list nat) | Gone | Has (b : bool).
Definition do_call (c : call) (r : reader) : answer * reader :=
  match c with
  | Next => let (l, r) := next_line r in (Line l, r)
  | Peek => let (l, r) := peek_line r in (Peeked l, r)
  | Unpeek => (Gone, peek_reset r)
  | More => (Has (more_lines r), r)
  end.
Fixpoint calls (cs : list call) (r : reader) : list answer :=
  match cs with [] => [] | c :: cs => let (a, r) := do_call c r in a :: calls cs r end.
End T.
