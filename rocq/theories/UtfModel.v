(** The input iterators that decode UTF-8 and UTF-16
    (/repo/src/include/kdev-pg-char-sets.h 271-612).
    A buffer is a list of units; the strings in use (QByteArray, std::string,
    QString) are followed by one terminating zero, which may be read; any read
    behind it is [Overrun].  Positions are indices. *)
From Coq Require Import List NArith Bool PeanoNat.
Import ListNotations.
Local Open Scope N_scope.

Inductive res (A : Type) := Ok (a : A) | Overrun | NoFuel.
Arguments Ok {A}. Arguments Overrun {A}. Arguments NoFuel {A}.
Definition rbind {A B} (r : res A) (k : A -> res B) : res B :=
  match r with Ok a => k a | Overrun => Overrun | NoFuel => NoFuel end.
Notation "'let!' x ':=' r 'in' k" := (rbind r (fun x => k)) (at level 200, x pattern, right associativity).

(** [*ptr] *)
Definition rd (buf : list N) (p : nat) : res N :=
  if Nat.leb p (length buf) then Ok (nth p buf 0) else Overrun.
(** [(ret << 6) | (byte & 0x3f)] *)
Definition more6 (ret byte : N) : N := N.lor (N.shiftl ret 6) (N.land byte 0x3f).

(** One round of the [while(true)] loops, lines 356-392, 424-456, 500-530,
    572-596: a plain byte, a decoded sequence, or a byte that cannot start
    one; with the position after it. *)
Inductive piece := Plain (c : N) | Seq (c : N) | Bad.
Definition round (buf : list N) (p : nat) : res (piece * nat) :=
  let! chr := rd buf p in
  if chr <? 128 then Ok (Plain chr, S p)
  else if N.land chr 0xe0 =? 0xc0 then
    let! b1 := rd buf (1 + p) in
    Ok (Seq (more6 (N.land chr 0x1f) b1), 2 + p)%nat
  else if N.land chr 0xf0 =? 0xe0 then
    let! b1 := rd buf (1 + p) in
    let! b2 := rd buf (2 + p) in
    Ok (Seq (more6 (more6 (N.land chr 0x0f) b1) b2), 3 + p)%nat
  else if N.land chr 0xf8 =? 0xf0 then
    let! b1 := rd buf (1 + p) in
    let! b2 := rd buf (2 + p) in
    let! b3 := rd buf (3 + p) in
    Ok (Seq (more6 (more6 (more6 (N.land chr 0x0f) b1) b2) b3), 4 + p)%nat
  else Ok (Bad, S p).

(** [(ret & 0xfffe) != 0xfffe && (ret - 0xfdd0U) > 15], unsigned 32 bit. *)
Definition allowed (ret : N) : bool :=
  negb (N.land ret 0xfffe =? 0xfffe) && (15 <? (ret + 2^32 - 0xfdd0) mod 2^32).

(** Loops until a round gives a plain byte or a sequence that [keep] lets
    through: Utf8ToUcs4Iterator::next (336-393) with [allowed],
    QUtf8ToUcs2Iterator::next (418-457) with [ucs2_keep],
    QUtf8ToAsciiIterator::next (568-597) with [fun _ => false]. *)
Fixpoint next8 (keep : N -> bool) (fuel : nat) (buf : list N) (p : nat) : res (N * nat) :=
  match fuel with
  | O => NoFuel
  | S f =>
    let! (x, p') := round buf p in
    match x with
    | Plain c => Ok (c, p')
    | Seq c => if keep c then Ok (c, p') else next8 keep f buf p'
    | Bad => next8 keep f buf p'
    end
  end.
(** Lines 451, 388. *)
Definition ucs2_keep (ret : N) : bool := (ret <=? 0xffff) && allowed ret.

(** QUtf8ToUtf16Iterator::next, 486-540, with the pending [surrogate].
    QChar::highSurrogate(c) = (c >> 10) + 0xd7c0, lowSurrogate(c) =
    c % 0x400 + 0xdc00 (Qt), as quint16. *)
Definition high_surrogate (c : N) : N := (N.shiftr c 10 + 0xd7c0) mod 0x10000.
Definition low_surrogate (c : N) : N := c mod 0x400 + 0xdc00.
Fixpoint next8_16_loop (fuel : nat) (buf : list N) (p : nat) : res (N * (nat * N)) :=
  match fuel with
  | O => NoFuel
  | S f =>
    let! (x, p') := round buf p in
    match x with
    | Plain c => Ok (c, (p', 0))
    | Seq c =>
      if c <=? 0xffff then if allowed c then Ok (c, (p', 0)) else next8_16_loop f buf p'
      else Ok (high_surrogate c, (p', low_surrogate c))
    | Bad => next8_16_loop f buf p'
    end
  end.
Definition next8_16 (fuel : nat) (buf : list N) (s : nat * N) : res (N * (nat * N)) :=
  let '(p, surrogate) := s in
  if negb (surrogate =? 0) then Ok (surrogate, (p, 0)) else next8_16_loop fuel buf p.

(** QUtf16ToUcs4Iterator::next, 284-291; QChar::surrogateToUcs4(h, l) =
    (h << 10) + l - 0x35fdc00, unsigned 32 bit. *)
Definition is_high (c : N) : bool := N.land c 0xfc00 =? 0xd800.
Definition surrogate_to_ucs4 (h l : N) : N := (N.shiftl h 10 + l + 2^32 - 0x35fdc00) mod 2^32.
Definition next16 (buf : list N) (p : nat) : res (N * nat) :=
  let! c := rd buf p in
  if is_high c then let! d := rd buf (1 + p) in Ok (surrogate_to_ucs4 c d, 2 + p)%nat
  else Ok (c, S p).

(** [while(it.hasNext()) out.push_back(it.next());] with hasNext() being
    [ptr != end] (394, 458, 541, 598, 292). *)
Section Collect.
Context {St : Type}.
Variable pos : St -> nat.
Variable next : St -> res (N * St).
Fixpoint collect (fuel len : nat) (s : St) : res (list N) :=
  if Nat.eqb (pos s) len then Ok []
  else match fuel with
       | O => NoFuel
       | S f => let! (c, s') := next s in let! r := collect f len s' in Ok (c :: r)
       end.
End Collect.
(** Enough rounds for a buffer: every round moves on. *)
Definition rounds (buf : list N) : nat := S (S (length buf)).
Definition collect8 (keep : N -> bool) (buf : list N) : res (list N) :=
  collect (fun p => p) (next8 keep (rounds buf) buf) (rounds buf) (length buf) 0%nat.
Definition collect8_16 (buf : list N) : res (list N) :=
  collect fst (next8_16 (rounds buf) buf) (2 * rounds buf) (length buf) (0%nat, 0).
Definition collect16 (buf : list N) : res (list N) :=
  collect (fun p => p) (next16 buf) (rounds buf) (length buf) 0%nat.
Definition ucs4_of_utf8 := collect8 allowed.
Definition ucs2_of_utf8 := collect8 ucs2_keep.
Definition ascii_of_utf8 := collect8 (fun _ => false).
