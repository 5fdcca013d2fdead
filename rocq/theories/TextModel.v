(** Escapes in string and character literals of lexer rules: unescaped()
    (/repo/src/kdev-pg.cpp 187-294) and the bounds of a range literal
    (/repo/src/kdev-pg-parser.yy 404-427).  A QByteArray is a list of bytes with
    a zero after it, a QString a list of UTF-16 units. *)
From Coq Require Import List NArith Bool.
Import ListNotations.
Local Open Scope N_scope.

(** The value of a digit: 222-228, 243-244, 260-261, 277-278. *)
Definition digit (base c : N) : option N :=
  if base =? 16 then
    if (97 <=? c) && (c <=? 102) then Some (c - 97 + 10)
    else if (65 <=? c) && (c <=? 70) then Some (c - 65 + 10)
    else if (48 <=? c) && (c <=? 57) then Some (c - 48)
    else None
  else if (48 <=? c) && (c <? 48 + base) then Some (c - 48) else None.
Definition wrap32 (x : N) : N := x mod 0x100000000.
(** The loops 217-234, 238-251, 255-268, 272-285: the value, and the rest of the
    text. *)
Fixpoint number (base x : N) (s : list N) : N * list N :=
  let x := wrap32 (x * base) in
  match s with
  | [] => (x / base, [])
  | c :: r => match digit base c with Some d => number base (wrap32 (x + d)) r | None => (x / base, s) end
  end.
(** The letters after the backslash: 215, 236, 253, 270. *)
Definition base_of (c : N) : option N :=
  if existsb (N.eqb c) [120; 88; 117; 85] then Some 16
  else if existsb (N.eqb c) [100; 68] then Some 10
  else if existsb (N.eqb c) [111; 79] then Some 8
  else if existsb (N.eqb c) [121; 89] then Some 2
  else None.
(** 199-214. *)
Definition named (c : N) : option N :=
  if c =? 110 then Some 10 else if c =? 116 then Some 9 else if c =? 102 then Some 12 else if c =? 118 then Some 11
  else if c =? 114 then Some 13 else if c =? 48 then Some 0 else if c =? 98 then Some 8 else if c =? 97 then Some 7
  else None.
(** QChar::fromUcs4 (Qt): one or two UTF-16 units. *)
Definition from_ucs4 (x : N) : list N :=
  if x <? 0x10000 then [x] else [(x / 1024 + 0xd7c0) mod 0x10000; x mod 1024 + 0xdc00].
(** unescaped.  [None]: out of fuel.  A backslash at the end makes the code read
    the zero after the text. *)
Fixpoint unescape (fuel : nat) (s : list N) : option (list N) :=
  match fuel with
  | O => None
  | S f =>
    match s with
    | [] => Some []
    | 92 :: [] => Some [0]
    | 92 :: c :: r =>
      match named c with
      | Some v => option_map (cons v) (unescape f r)
      | None =>
        match base_of c with
        | Some base => let (x, r) := number base 0 r in option_map (app (from_ucs4 x)) (unescape f r)
        | None => option_map (cons c) (unescape f r)
        end
      end
    | c :: r => option_map (cons c) (unescape f r)
    end
  end.
Definition unescaped (s : list N) : option (list N) := unescape (S (length s)) s.

(** QChar::surrogateToUcs4. *)
Definition surrogates (h l : N) : N := wrap32 (h * 1024 + l + (0x100000000 - 0x35fdc00)).
(** parser.yy 406-426: begin and end+1; [None]: an assertion fails. *)
Definition range_bounds (str : list N) : option (N * N) :=
  match str with
  | a :: m :: rest =>
    if m =? 45 then
      match rest with
      | [c] => Some (a, wrap32 (c + 1))
      | [c; d] | [c; d; _] => Some (a, wrap32 (surrogates c d + 1))
      | _ => None
      end
    else
      match rest with
      | [h; d] => if h =? 45 then Some (surrogates a m, wrap32 (d + 1)) else None
      | [h; d; e] => if h =? 45 then Some (surrogates a m, wrap32 (surrogates d e + 1)) else None
      | _ => None
      end
  | _ => None
  end.
